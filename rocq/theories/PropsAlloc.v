(** C122: Mat when memory runs out. *)
From Coq Require Import Ascii String.
From Verif Require Import Base IntModel IOModel ElemModel ElemSpec VecModel MatModel HeapModel HeapSpec HeapProofs AllocModel AllocSpec AllocProofs.
Local Open Scope list_scope.
Local Open Scope nat_scope.

(** If no request fails, nothing is different. *)
Theorem C122_enough : forall T A (E : ops T) el junk (p : prog T A) s n,
  exists n', arun E el (fun _ => false) junk p s n = (fst (hrun E p s), n', Fin (snd (hrun E p s))).
Proof.
  intros T A E el junk p s n. pose proof (arun_enough E el junk p s n) as P. destruct (arun E el _ junk p s n) as [[s' n'] [m|]]; [|destruct P; congruence].
  destruct P as [-> _]. exists n'. reflexivity.
Qed.
(** Whatever a program does, and whichever requests fail: no dangling or shared array. *)
Theorem C122_owned : forall T A (E : ops T) el fails junk (p : prog T A) s n, owned s -> owned (fst (fst (arun E el fails junk p s n))).
Proof. exact @arun_owned. Qed.
(** These make no object. If elements need no memory (int, double, std::complex), they
    cannot run out of it. *)
Theorem C122_in_place : forall T (E : ops T) s fails junk n, owned s ->
  let never A (p : prog T A) := exists n', arun E false fails junk p s n = (fst (hrun E p s), n', Fin (snd (hrun E p s))) in
  (forall x vals size, never unit (h_setEntries x (fun k => Ret (read vals k)) size)) /\ (forall x v, never unit (h_setEntries_val x v)) /\
  (forall a b, never unit (h_add_assign E a b)) /\ (forall a b, never unit (h_sub_assign E a b)) /\
  (forall x k, never unit (h_mul_assign E x k)) /\ (forall x k, never unit (h_div_assign E x k)) /\
  (forall a b, never bool (h_eq E a b)) /\ (forall a b, never bool (h_ne E a b)) /\
  (forall x, never unit (h_inplace_rref E x)) /\ (forall x, never T (h_trace E x)).
Proof.
  intros T E s fails junk n O never. subst never. cbn beta.
  repeat match goal with |- _ /\ _ => split end; intros; eexists.
  - apply (st_enough E false fails junk (only x)); [exact O| |reflexivity]. apply st_setEntries; [apply here1|]. intros k. apply st_ret.
  - apply (st_enough E false fails junk (only x)); [exact O| |reflexivity]. apply st_setEntries_val, here1.
  - apply (st_enough E false fails junk (only a)); [exact O| |reflexivity]. apply st_mat_assign.
  - apply (st_enough E false fails junk (only a)); [exact O| |reflexivity]. apply st_mat_assign.
  - apply (st_enough E false fails junk (only x)); [exact O| |reflexivity]. apply st_scale_assign.
  - apply (st_enough E false fails junk (only x)); [exact O| |reflexivity]. apply st_scale_assign.
  - apply (st_enough E false fails junk none); [exact O| |reflexivity]. apply st_eq.
  - apply (st_enough E false fails junk none); [exact O| |reflexivity]. apply st_ne.
  - apply (st_enough E false fails junk (only x)); [exact O| |reflexivity]. apply st_inplace_rref, here1.
  - apply (st_enough E false fails junk none); [exact O| |reflexivity]. apply st_trace.
Qed.
(** These make their objects with the constructor that copies no element, Mat(rows, cols).
    When memory runs out they change nothing and lose nothing, whatever the elements. *)
Theorem C122_strong : forall T (E : ops T) el s, owned s ->
  (forall r c, guarantees E el none false s (New r c)) /\
  (forall a, guarantees E el none false s (h_neg E a)) /\ (forall a b, guarantees E el none false s (h_add E a b)) /\
  (forall a b, guarantees E el none false s (h_sub E a b)) /\ (forall k a, guarantees E el none false s (h_scale E k a)) /\
  (forall k a, guarantees E el none false s (h_div E k a)) /\ (forall x i j, guarantees E el none false s (h_first_minor x i j)) /\
  (forall x i j, guarantees E el none false s (h_cofactor E x i j)) /\ (forall a b, guarantees E el none false s (h_augmented a b)) /\
  (forall x, guarantees E el none false s (h_transpose x)) /\ (forall x, guarantees E el none false s (h_row_expansion E x)) /\
  (forall x, guarantees E el none false s (h_col_expansion E x)).
Proof.
  intros T E el s O. rewrite <- (Bool.andb_false_r el).
  repeat match goal with |- _ /\ _ => split end; intros; intros fails junk; eapply (ends_left E el fails junk false s _ _ _ O).
  - eapply (tri_weaken _ _ _ _ _ _ _ (fun _ _ => True) _ (fun _ => True)); [apply tri_new|..]; cbn beta; auto. intros H Q. left. exact Q.
  - apply mk_map.
  - apply mk_binary.
  - apply mk_binary.
  - apply mk_map.
  - apply mk_map.
  - apply mk_first_minor.
  - apply mk_cofactor.
  - apply mk_augmented.
  - apply mk_transpose.
  - apply ex_row.
  - apply ex_col.
Qed.
(** These copy elements in the body of a constructor. When memory runs out they change
    nothing, not even the object assigned to; and if the elements need no memory they
    lose nothing. *)
Theorem C122_copying : forall T (E : ops T) el s, owned s ->
  (forall x, guarantees E el none el s (h_copy x)) /\ (forall r c v, guarantees E el none el s (h_val r c v)) /\
  (forall vals r c, guarantees E el none el s (h_array vals r c)) /\ (forall x a, guarantees E el none el s (h_assign x a)) /\
  (forall a b, guarantees E el none el s (h_product E a b)) /\ (forall a b, guarantees E el none el s (h_product_assign E a b)) /\
  (forall x, guarantees E el none el s (h_determinant E x)) /\ (forall x, guarantees E el none el s (h_rref E x)) /\
  (forall x, guarantees E el none el s (h_inverse E x)) /\ (forall vals n, guarantees E el none el s (h_diagonal E vals n)) /\
  (forall n, guarantees E el none el s (h_identity E n)) /\ (forall pr o x, guarantees E el none el s (h_print pr o x)).
Proof.
  intros T E el s O. assert (L : forall A (p : prog T A), guarantees E el none (el && true) s p -> guarantees E el none el s p) by (intros A p; rewrite Bool.andb_true_r; auto).
  repeat match goal with |- _ /\ _ => split end; intros; apply L; intros fails junk; eapply (ends_left E el fails junk true s _ _ _ O).
  - apply mk_copy.
  - apply mk_val.
  - apply mk_array.
  - apply act_assign.
  - apply mk_product.
  - apply act_product_assign.
  - apply ex_determinant.
  - apply mk_rref.
  - apply mk_inverse.
  - apply mk_diagonal.
  - apply mk_identity.
  - apply ex_print.
Qed.
(** With elements that need memory, these can stop half-way: the object keeps its size,
    its entries may be anything, no other object changes and nothing is lost. *)
Theorem C122_basic : forall T (E : ops T) s, owned s ->
  (forall x vals size, guarantees E true (only x) false s (h_setEntries x (fun k => Ret (read vals k)) size)) /\
  (forall x v, guarantees E true (only x) false s (h_setEntries_val x v)) /\
  (forall a b, guarantees E true (only a) false s (h_add_assign E a b)) /\ (forall a b, guarantees E true (only a) false s (h_sub_assign E a b)) /\
  (forall x k, guarantees E true (only x) false s (h_mul_assign E x k)) /\ (forall x k, guarantees E true (only x) false s (h_div_assign E x k)) /\
  (forall x, guarantees E true (only x) false s (h_inplace_rref E x)) /\
  (forall a b, guarantees E true none false s (h_eq E a b)) /\ (forall a b, guarantees E true none false s (h_ne E a b)) /\
  (forall x, guarantees E true none false s (h_trace E x)).
Proof.
  intros T E s O. repeat match goal with |- _ /\ _ => split end; intros; intros fails junk; apply (ends_st E true fails junk _ s _ O).
  - apply st_setEntries; [apply here1|]. intros k. apply st_ret.
  - apply st_setEntries_val, here1.
  - apply st_mat_assign.
  - apply st_mat_assign.
  - apply st_scale_assign.
  - apply st_scale_assign.
  - apply st_inplace_rref, here1.
  - apply st_eq.
  - apply st_ne.
  - apply st_trace.
Qed.
(** After a failure of the strong kind every object has its value, so calling again with
    enough memory gives what the first call would have given (C103). *)
Theorem C122_retry : forall T (s s' : memory T), kept none false s s' -> owned s' /\ forall y, value s' y = value s y.
Proof.
  intros T s s' (O & K & z & L). split; [exact O|]. intros y. destruct (value s y) as [v|] eqn:Ey.
  - destruct (K y v Ey) as (w & -> & ->). reflexivity.
  - destruct (value s' y) eqn:Ey'; [|reflexivity]. destruct (L y Ey) as [X _]; [congruence|discriminate].
Qed.
(** *** The leak: if copying an Int fails in the body of a constructor of Mat, the array is
    lost, in every function of C122_copying. *)
Definition five : Int := mkInt [5%Z] false.
Definition store1 (r : nat) : memory Int := fst (hrun Int_ops (h_val r r five) (mkMem [] [])).
(** request 2 is the first assignment of an element in a constructor *)
Definition loses {A} (p : prog Int A) (s : memory Int) : Prop :=
  match arun Int_ops true (Nat.eqb 2) (fun _ => five) p s 0 with
  | (s', _, NoMem) => count (arrays s') = S (count (arrays s)) /\ exists z, value s z = None /\ value s' z <> None
  | _ => False
  end.
Theorem C122_leak_refuted : owned (store1 1) /\ owned (store1 3) /\
  loses (h_copy 0) (store1 1) /\ loses (h_val 1 1 five) (store1 1) /\ loses (h_array [Some five] 1 1) (store1 1) /\ loses (h_assign 0 0) (store1 1) /\
  loses (h_product Int_ops 0 0) (store1 1) /\ loses (h_product_assign Int_ops 0 0) (store1 1) /\ loses (h_determinant Int_ops 0) (store1 3) /\
  loses (h_rref Int_ops 0) (store1 1) /\ loses (h_inverse Int_ops 0) (store1 1) /\ loses (h_diagonal Int_ops [Some five] 1) (store1 1) /\
  loses (h_identity Int_ops 1) (store1 1) /\ loses (h_print (fun o _ => o) (mkOut [] 0 " "%char) 0) (store1 1).
Proof.
  assert (O : forall r, owned (store1 r)) by (intros r; apply run_owned, owned_empty).
  repeat match goal with |- _ /\ _ => split end; try apply O; vm_compute; (split; [reflexivity|]); exists 1; (split; [reflexivity|discriminate]).
Qed.

(** *** Runs: the request that fails, if any; what is left: live arrays, entries of object 0, and whether memory ran out. *)
Definition ints (l : list Z) : list (option Z) := map Some l.
Definition out {A} (r : run_end Z A) := let '(s, _, e) := r in (count (arrays s), value s 0, match e with NoMem => true | _ => false end).
Definition two : memory Z := fst (hrun int32_ops (x <~ h_array (ints [1; 2; 3; 5]%Z) 2 2 ;; h_val 2 2 1%Z) (mkMem [] [])).
Definition m0 (l : list Z) : option (Mat Z) := Some (mkMat 2 2 (ints l)).
(* elements without memory: the inverse makes three objects; none is left if the third, or the second, or the first, fails *)
Example C122_ex_inverse : let f k := out (arun int32_ops false (Nat.eqb k) (fun _ => 0%Z) (h_inverse int32_ops 0) two 0) in
  (f 0, f 1, f 2) = ((2, m0 [1; 2; 3; 5]%Z, true), (2, m0 [1; 2; 3; 5]%Z, true), (2, m0 [1; 2; 3; 5]%Z, true)) /\ f 3 = (3, m0 [1; 2; 3; 5]%Z, false).
Proof. vm_compute. auto. Qed.
(* a = b: all or nothing *)
Example C122_ex_assign : let f k := out (arun int32_ops false (Nat.eqb k) (fun _ => 0%Z) (h_assign 0 1) two 0) in
  f 0 = (2, m0 [1; 2; 3; 5]%Z, true) /\ f 1 = (2, m0 [1; 1; 1; 1]%Z, false).
Proof. vm_compute. auto. Qed.
(* a += a with elements that need memory: stops at the second entry, which is anything *)
Example C122_ex_compound : let f k := out (arun int32_ops true (Nat.eqb k) (fun _ => 99%Z) (h_add_assign int32_ops 0 0) two 0) in
  f 7 = (2, m0 [2; 99; 3; 5]%Z, true) /\ f 6 = (2, m0 [2; 2; 3; 5]%Z, true) /\ f 100 = (2, m0 [2; 4; 6; 10]%Z, false).
Proof. vm_compute. auto. Qed.
(* a + b destroys its half-made result; copying a does not *)
Example C122_ex_lost : let f A (p : prog Z A) := out (arun int32_ops true (Nat.eqb 4) (fun _ => 99%Z) p two 0) in
  f nat (h_add int32_ops 0 1) = (2, m0 [1; 2; 3; 5]%Z, true) /\ f nat (h_copy 0) = (3, m0 [1; 2; 3; 5]%Z, true).
Proof. vm_compute. auto. Qed.

Print Assumptions C122_enough.
Print Assumptions C122_owned.
Print Assumptions C122_in_place.
Print Assumptions C122_strong.
Print Assumptions C122_copying.
Print Assumptions C122_basic.
Print Assumptions C122_retry.
Print Assumptions C122_leak_refuted.
