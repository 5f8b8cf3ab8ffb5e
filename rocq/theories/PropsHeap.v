(** C103: the memory behind Mat. *)
From Coq Require Import Ascii String.
From Verif Require Import Base IntModel IOModel ElemModel ElemSpec VecModel MatModel HeapModel HeapSpec HeapProofs.
Local Open Scope list_scope.
Local Open Scope nat_scope.

(** Whatever a program does with Mat objects -- even one that ends in undefined
    behaviour -- every live object has an array of its own, and every array an object. *)
Theorem C103_owned : forall T (E : ops T) A (p : prog T A) s, owned s -> owned (fst (hrun E p s)).
Proof. exact @run_owned. Qed.
(** as many arrays as objects *)
Theorem C103_count : forall T (s : memory T), owned s -> count (arrays s) = count (objs s).
Proof. exact @owned_count. Qed.
(** the destructor of a live object deletes once, and touches no other object *)
Theorem C103_destructor : forall T (E : ops T) s x, owned s -> live (objs s) x <> None ->
  exists s', hrun E (Del x) s = (s', Ok tt) /\ owned s' /\ forall y, value s' y = upd (value s) x None y.
Proof. exact @destroys. Qed.
Theorem C103_constructors : forall T (E : ops T) s, owned s ->
  (forall r c, returns E s (New r c) (Ok (Mat_new E r c))) /\
  (forall r c a, returns E s (h_val r c a) (Mat_val E r c a)) /\
  (forall vals r c, returns E s (h_array vals r c) (Mat_array E vals r c)) /\
  (forall x v, value s x = Some v -> returns E s (h_copy x) (Mat_copy E v)).
Proof.
  intros T E s O. split; [|split; [|split]]; intros.
  - exact (returns_new E s r c O).
  - exact (returns_of E s _ _ O (makes_val E _ r c a)).
  - exact (returns_of E s _ _ O (makes_array E _ vals r c)).
  - exact (returns_of E s _ _ O (makes_copy E _ x v H)).
Qed.
(** x = a; also x = x *)
Theorem C103_assign : forall T (E : ops T) s x a v w, owned s -> value s x = Some v -> value s a = Some w ->
  changes E s x (h_assign x a) (M_assign E v (Some w)).
Proof. exact @changes_assign. Qed.
Theorem C103_entries : forall T (E : ops T) s x v i j a, owned s -> value s x = Some v ->
  yields E s (Get x i j) (entry v i j) /\ changes E s x (Set_ x i j a) (set_entry v i j a) /\
  (forall vals size, changes E s x (h_setEntries x (fun k => Ret (read vals k)) size) (setEntries_ptr v vals size)) /\
  changes E s x (h_setEntries_val x a) (mat_setEntries_val v a).
Proof.
  intros T E s x v i j a O H. split; [|split; [|split]].
  - exact (yields_of E s _ _ O (expr_get E _ x v i j H)).
  - exact (changes_of E s x v _ _ O H (stmt_set E _ x v i j a)).
  - intros vals size. apply (changes_of E s x v _ _ O H). apply stmt_setEntries. intros. apply expr_ret.
  - exact (changes_of E s x v _ _ O H (stmt_setEntries_val E _ x v a)).
Qed.
Theorem C103_arithmetic : forall T (E : ops T) s a b v w k, owned s -> value s a = Some v -> value s b = Some w ->
  returns E s (h_neg E a) (M_neg E v) /\ returns E s (h_add E a b) (M_add E v w) /\ returns E s (h_sub E a b) (M_sub E v w) /\
  returns E s (h_scale E k a) (M_scale E k v) /\ returns E s (h_div E k a) (M_div E v k) /\ returns E s (h_product E a b) (M_product E v w).
Proof.
  intros T E s a b v w k O Ha Hb. split; [|split; [|split; [|split; [|split]]]]; apply (returns_of E s _ _ O).
  - exact (makes_map E _ (neg E) a v Ha).
  - exact (makes_binary E _ (add E) a b v w Ha Hb).
  - exact (makes_binary E _ (sub E) a b v w Ha Hb).
  - exact (makes_map E _ (mul E k) a v Ha).
  - exact (makes_map E _ (fun x => div E x k) a v Ha).
  - exact (makes_product E _ a b v w Ha Hb).
Qed.
(** a += b and so on; b may be a *)
Theorem C103_compound : forall T (E : ops T) s a b v w k, owned s -> value s a = Some v -> value s b = Some w ->
  changes E s a (h_add_assign E a b) (M_add_assign E v (if b =? a then None else Some w)) /\
  changes E s a (h_sub_assign E a b) (M_sub_assign E v (if b =? a then None else Some w)) /\
  changes E s a (h_mul_assign E a k) (M_mul_assign E v k) /\ changes E s a (h_div_assign E a k) (M_div_assign E v k) /\
  changes E s a (h_product_assign E a b) (M_product_assign E v (Some w)).
Proof.
  intros T E s a b v w k O Ha Hb. split; [|split; [|split; [|split]]].
  - exact (changes_mat_assign E (addA E) s a b v w O Ha Hb).
  - exact (changes_mat_assign E (subA E) s a b v w O Ha Hb).
  - exact (changes_of E s a v _ _ O Ha (stmt_scale_assign E _ (mulA E) a v k)).
  - exact (changes_of E s a v _ _ O Ha (stmt_scale_assign E _ (divA E) a v k)).
  - exact (changes_product_assign E s a b v w O Ha Hb).
Qed.
Theorem C103_compare : forall T (E : ops T) s a b v w, owned s -> value s a = Some v -> value s b = Some w ->
  yields E s (h_eq E a b) (M_eq E v w) /\ yields E s (h_ne E a b) (M_ne E v w).
Proof.
  intros T E s a b v w O Ha Hb. split; apply (yields_of E s _ _ O); [exact (expr_eq_mat E _ a b v w Ha Hb)|exact (expr_ne_mat E _ a b v w Ha Hb)].
Qed.
(** the minors and copies made on the way are all destroyed, also by an exception *)
Theorem C103_determinants : forall T (E : ops T) s x v, owned s -> value s x = Some v ->
  yields E s (h_determinant E x) (determinant E v) /\ yields E s (h_row_expansion E x) (row_cofactor_expansion E v) /\
  yields E s (h_col_expansion E x) (col_cofactor_expansion E v) /\ yields E s (h_trace E x) (trace E v).
Proof.
  intros T E s x v O H. split; [|split; [|split]]; apply (yields_of E s _ _ O).
  - exact (expr_determinant E _ x v H).
  - exact (expr_dims_then E _ x v _ _ H (expr_row_exp E _ _ x v H)).
  - exact (expr_dims_then E _ x v _ _ H (expr_col_exp E _ _ x v H)).
  - exact (expr_trace E _ x v H).
Qed.
Theorem C103_matrices : forall T (E : ops T) s x y v w i j, owned s -> value s x = Some v -> value s y = Some w ->
  returns E s (h_first_minor x i j) (first_minor E v i j) /\ returns E s (h_cofactor E x i j) (cofactor E v i j) /\
  returns E s (h_transpose x) (transpose E v) /\ returns E s (h_augmented x y) (augmentedMatrix E v w) /\
  returns E s (h_rref E x) (rref E v) /\ changes E s x (h_inplace_rref E x) (inplace_rref E v) /\
  returns E s (h_inverse E x) (inverse E v).
Proof.
  intros T E s x y v w i j O H Hy. split; [|split; [|split; [|split; [|split; [|split]]]]];
    [apply (returns_of E s _ _ O)..|apply (changes_of E s x v _ _ O H)|apply (returns_of E s _ _ O)].
  - exact (makes_first_minor E _ x v i j H).
  - exact (makes_cofactor E _ x v i j H).
  - exact (makes_transpose E _ x v H).
  - exact (makes_augmented E _ x y v w H Hy).
  - exact (makes_rref E _ x v H).
  - exact (stmt_inplace_rref E _ x v).
  - exact (makes_inverse E _ x v H).
Qed.
Theorem C103_made : forall T (E : ops T) s vals n, owned s ->
  returns E s (h_diagonal E vals n) (diagonalMatrix E vals n) /\ returns E s (h_identity E n) (identityMatrix E n).
Proof.
  intros T E s vals n O. split; apply (returns_of E s _ _ O); [exact (makes_diagonal E _ vals n)|exact (makes_identity E _ n)].
Qed.
Theorem C103_print : forall T (E : ops T) s x v pr o, owned s -> value s x = Some v -> yields E s (h_print pr o x) (M_print E pr o v).
Proof. intros T E s x v pr o O H. exact (yields_of E s _ _ O (expr_print E _ pr o x v H)). Qed.

(** *** Runs. [tally]: live arrays, arrays ever made. *)
Definition tally {T A} (r : memory T * res A) := (count (arrays (fst r)), List.length (arrays (fst r)), snd r).
Definition ints (l : list Z) : list (option Z) := map Some l.
Local Notation none := (mkMem (T := Z) [] []).
Local Notation a2 l := (h_array (ints l) 2 2).
(* the inverse of a singular matrix: identity, augmented matrix and result are gone *)
Example C103_ex_singular : tally (hrun int32_ops (x <~ a2 [1; 2; 2; 4]%Z ;; h_inverse int32_ops x) none) = (1, 4, Throw DomainError).
Proof. vm_compute. reflexivity. Qed.
Example C103_ex_inverse : let r := hrun int32_ops (x <~ a2 [1; 2; 0; 1]%Z ;; h_inverse int32_ops x) none in
  tally r = (2, 4, Ok 3) /\ value (fst r) 3 = Some (mkMat 2 2 (ints [1; -2; 0; 1]%Z)) /\ value (fst r) 1 = None.
Proof. vm_compute. auto. Qed.
(* a = a and a *= a, and the destructor twice *)
Example C103_ex_self : let r := hrun int32_ops (x <~ a2 [1; 2; 3; 4]%Z ;; _ <~ h_assign x x ;; _ <~ h_product_assign int32_ops x x ;; Ret (Ok x)) none in
  tally r = (1, 3, Ok 0) /\ value (fst r) 0 = Some (mkMat 2 2 (ints [7; 10; 15; 22]%Z)).
Proof. vm_compute. auto. Qed.
Example C103_ex_delete : tally (hrun int32_ops (x <~ a2 [1; 2; 3; 4]%Z ;; _ <~ Del x ;; Ret (Ok x)) none) = (0, 1, Ok 0) /\
  snd (hrun int32_ops (x <~ a2 [1; 2; 3; 4]%Z ;; _ <~ Del x ;; Del x) none) = UB /\
  snd (hrun int32_ops (x <~ a2 [1; 2; 3; 4]%Z ;; _ <~ Del x ;; Get x 0 0) none) = UB.
Proof. vm_compute. auto. Qed.
(* a determinant copies once; an expansion makes a minor at a time *)
Example C103_ex_det : let m := h_array (ints [2; 0; 1; 0; 3; 0; 1; 0; 1]%Z) 3 3 in
  tally (hrun int32_ops (x <~ m ;; h_row_expansion int32_ops x) none) = (1, 3, Ok 3%Z) /\
  tally (hrun int32_ops (x <~ m ;; h_col_expansion int32_ops x) none) = (1, 3, Ok 3%Z) /\
  tally (hrun int32_ops (x <~ m ;; h_trace int32_ops x) none) = (1, 1, Ok 6%Z).
Proof. vm_compute. auto. Qed.
Example C103_ex_mixed : let r := hrun int32_ops (x <~ a2 [1; 2; 3; 4]%Z ;; y <~ h_val 2 2 1%Z ;; _ <~ h_sub_assign int32_ops x y ;; _ <~ h_add_assign int32_ops x x ;;
      _ <~ h_mul_assign int32_ops x (MElem 1 0) ;; z <~ h_transpose x ;; w <~ h_cofactor int32_ops z 0 1 ;; _ <~ h_assign y w ;; _ <~ Del w ;; Ret (Ok (x, y, z))) none in
  tally r = (3, 6, Ok (0, 1, 2)) /\ value (fst r) 0 = Some (mkMat 2 2 (ints [0; 8; 16; 96]%Z)) /\
  value (fst r) 2 = Some (mkMat 2 2 (ints [0; 16; 8; 96]%Z)) /\ value (fst r) 1 = Some (mkMat 1 1 (ints [-8]%Z)).
Proof. vm_compute. auto. Qed.
(* subtracting matrices of different sizes throws before anything is made *)
Example C103_ex_sizes : tally (hrun int32_ops (x <~ a2 [1; 2; 3; 4]%Z ;; y <~ h_val 2 3 1%Z ;; h_sub int32_ops x y) none) = (2, 2, Throw DomainError) /\
  owned none.
Proof. split; [vm_compute; reflexivity|exact owned_empty]. Qed.

Print Assumptions C103_owned.
Print Assumptions C103_count.
Print Assumptions C103_destructor.
Print Assumptions C103_constructors.
Print Assumptions C103_assign.
Print Assumptions C103_entries.
Print Assumptions C103_arithmetic.
Print Assumptions C103_compound.
Print Assumptions C103_compare.
Print Assumptions C103_determinants.
Print Assumptions C103_matrices.
Print Assumptions C103_made.
Print Assumptions C103_print.
