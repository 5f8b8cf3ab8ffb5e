(** C123: how much memory the functions of Mat need. *)
From Coq Require Import Ascii String.
From Verif Require Import Base IntModel IOModel ElemModel ElemSpec VecModel MatModel MatSpec HeapModel HeapSpec HeapProofs AllocModel AllocSpec AllocProofs SpaceModel SpaceSpec SpaceProofs PropsAlloc.
Local Open Scope list_scope.
Local Open Scope nat_scope.

(** [needs E s p k] (SpaceSpec): with room for k elements p ends as with unlimited memory;
    with less it ends in std::bad_alloc and nothing has changed. *)
(** No run exceeds the limit. *)
Theorem C123_limit : forall T (E : ops T) A (p : prog T A) L s, used s <= L -> used (fst (lrun E L p s)) <= L.
Proof. intros T E A p L s. exact (lrun_used E L p s). Qed.
(** A run with a limit is a run in which some requests fail, as in C122. *)
Theorem C123_runs : forall T (E : ops T) A (p : prog T A) L s, exists fails n, forall junk, arun E false fails junk p s 0 = (fst (lrun E L p s), n, snd (lrun E L p s)).
Proof.
  intros T E A p L s. destruct (lrun_arun E L (fun _ => of_int E 0) p s 0) as (n' & b & _ & _ & R). exists (fun k => b && (k =? n')), (if b then S n' else n').
  intros junk. rewrite <- (R (fun k => b && (k =? n'))); [|intros k H; destruct (Nat.eqb_spec k n'); [lia|apply Bool.andb_false_r]|intros ->; cbn; apply Nat.eqb_refl].
  reflexivity.
Qed.
Theorem C123_constructors : forall T (E : ops T) s, owned s ->
  (forall r c, needs E s (New r c) (r * c)) /\ (forall r c a, needs E s (h_val r c a) (r * c)) /\ (forall vals r c, needs E s (h_array vals r c) (r * c)) /\
  (forall vals n, needs E s (h_diagonal E vals n) (n * n)) /\ (forall n, needs E s (h_identity E n) (n * n)) /\
  (forall x v, value s x = Some v -> needs E s (h_copy x) (rows v * cols v)).
Proof.
  intros T E s O. destruct (C122_strong T E false s O) as (N1 & _). destruct (C122_copying T E false s O) as (Ncopy & Nval & Narray & _ & _ & _ & _ & _ & _ & Ndiag & Nid & _).
  repeat match goal with |- _ /\ _ => split end; intros; apply needs_of; auto.
  - eapply need2_of; [exact O|apply mkc_new].
  - eapply need2_of; [exact O|apply mkc_val].
  - eapply need2_of; [exact O|apply mkc_array].
  - eapply need2_of; [exact O|apply mkc_diagonal].
  - eapply need2_of; [exact O|apply mkc_identity].
  - eapply need2_of; [exact O|apply mkc_copy; assumption].
Qed.
(** one matrix in, one of the same size out; assignment and printing copy their operand *)
Theorem C123_unary : forall T (E : ops T) s x v k, owned s -> value s x = Some v ->
  needs E s (h_neg E x) (rows v * cols v) /\ needs E s (h_scale E k x) (rows v * cols v) /\ needs E s (h_div E k x) (rows v * cols v) /\
  needs E s (h_transpose x) (rows v * cols v) /\ needs E s (h_rref E x) (rows v * cols v) /\
  (forall this, needs E s (h_assign this x) (rows v * cols v)) /\ (forall pr o, needs E s (h_print pr o x) (rows v * cols v)).
Proof.
  intros T E s x v k O Gx. destruct (C122_strong T E false s O) as (_ & Nneg & _ & _ & Nscale & Ndiv & _ & _ & _ & Ntr & _). destruct (C122_copying T E false s O) as (_ & _ & _ & Nassign & _ & _ & _ & Nrref & _ & _ & _ & Nprint).
  repeat match goal with |- _ /\ _ => split end; intros; apply needs_of; auto.
  - eapply need2_of; [exact O|apply mkc_map; exact Gx].
  - eapply need2_of; [exact O|apply mkc_map; exact Gx].
  - eapply need2_of; [exact O|apply mkc_map; exact Gx].
  - eapply need2_of; [exact O|apply mkc_transpose; exact Gx].
  - eapply need2_of; [exact O|apply mkc_rref; exact Gx].
  - apply need2_assign; auto.
  - eapply need2_of; [exact O|apply exc_print; exact Gx].
Qed.
(** Operands that do not fit are refused before anything is made. *)
Theorem C123_binary : forall T (E : ops T) s x y v w, owned s -> value s x = Some v -> value s y = Some w ->
  let sum := if (rows v =? rows w) && (cols v =? cols w) then rows v * cols v else 0 in
  let product := if cols v =? rows w then rows v * cols w else 0 in
  needs E s (h_add E x y) sum /\ needs E s (h_sub E x y) sum /\ needs E s (h_product E x y) product /\ needs E s (h_product_assign E x y) product /\
  needs E s (h_augmented x y) (if rows v =? rows w then rows v * (cols v + cols w) else 0).
Proof.
  intros T E s x y v w O Gx Gy sum product. subst sum product. destruct (C122_strong T E false s O) as (_ & _ & Nadd & Nsub & _ & _ & _ & _ & Naug & _). destruct (C122_copying T E false s O) as (_ & _ & _ & _ & Nprod & Npa & _).
  assert (B : forall op, need2 E s (h_binary op x y) (if (rows v =? rows w) && (cols v =? cols w) then rows v * cols v else 0) (if (rows v =? rows w) && (cols v =? cols w) then rows v * cols v else 0)).
  { intros op. destruct ((rows v =? rows w) && (cols v =? cols w)) eqn:K.
    - apply Bool.andb_true_iff in K. destruct K as [R C]. apply Nat.eqb_eq in R, C. eapply need2_of; [exact O|apply (mkc_binary E (value s) op x y v w); auto].
    - unfold h_binary. apply (need2_dims E s x v); auto. apply (need2_dims E s y w); auto. rewrite K. cbn [negb]. eapply need2_of; [exact O|]. apply (exc_calm E true). apply calm_ret. discriminate. }
  assert (X : forall {A} (e : exn), need2 E s (Ret (Throw e) : prog T A) 0 0) by (intros A e; eapply need2_of; [exact O|apply (exc_calm E true), calm_ret; discriminate]).
  split; [|split; [|split; [|split]]]; apply needs_of; auto; try apply B.
  - destruct (Nat.eqb_spec (cols v) (rows w)) as [R|R]; [eapply need2_of; [exact O|apply (mkc_product E (value s) x y v w); auto]|].
    unfold h_product. apply (need2_dims E s x v); auto. apply (need2_dims E s y w); auto. destruct (Nat.eqb_spec (cols v) (rows w)); [contradiction|]. apply X.
  - destruct (Nat.eqb_spec (cols v) (rows w)) as [R|R]; [apply (need2_product_assign E s x y v w); auto|].
    unfold h_product_assign. apply (need2_dims E s x v); auto. apply (need2_dims E s y w); auto. destruct (Nat.eqb_spec (cols v) (rows w)); [contradiction|]. apply X.
  - destruct (Nat.eqb_spec (rows v) (rows w)) as [R|R]; [eapply need2_of; [exact O|apply (mkc_augmented E true (value s) x y v w); auto]|].
    unfold h_augmented. apply (need2_dims E s x v); auto. apply (need2_dims E s y w); auto. destruct (Nat.eqb_spec (rows v) (rows w)); [contradiction|]. apply X.
Qed.
(** minors; a cofactor at an odd place is made from a minor that still exists *)
Theorem C123_minors : forall T (E : ops T) s x v i j, owned s -> value s x = Some v -> rows v <> 0 -> cols v <> 0 ->
  let minor := (rows v - 1) * (cols v - 1) in
  needs E s (h_first_minor x i j) minor /\ needs E s (h_cofactor E x i j) (if (i + j) mod 2 =? 1 then 2 * minor else minor).
Proof.
  intros T E s x v i j O Gx R C minor. subst minor. destruct (C122_strong T E false s O) as (_ & _ & _ & _ & _ & _ & Nm & Nc & _).
  split; apply needs_of; auto; (eapply need2_of; [exact O|]); [apply mkc_first_minor; auto|apply mkc_cofactor; auto].
Qed.
(** an n x n matrix: n^2 for the determinant (none for n = 1, 2), 4 n^2 for the inverse *)
Theorem C123_square : forall T (E : ops T) s x v n, owned s -> value s x = Some v -> rows v = n -> cols v = n ->
  needs E s (h_determinant E x) (if (n =? 1) || (n =? 2) then 0 else n * n) /\ needs E s (h_inverse E x) (4 * (n * n)).
Proof.
  intros T E s x v n O Gx R C. destruct (C122_copying T E false s O) as (_ & _ & _ & _ & _ & _ & Nd & _ & Ni & _). rewrite <- R. split; apply needs_of; auto; (eapply need2_of; [exact O|]).
  - apply (exc_determinant E (value s) x v Gx). congruence.
  - apply mkc_inverse; [exact Gx|congruence].
Qed.
(** cofactor expansion: one minor of each size, 2^2 + ... + (n-1)^2; less may do if entries
    are zero, but not if none is *)
Theorem C123_expansions : forall T (E : ops T) s x v n, owned s -> value s x = Some v -> rows v = n -> cols v = n ->
  suffices E s (h_row_expansion E x) (squares n) /\ suffices E s (h_col_expansion E x) (squares n) /\
  (mat_of (fun a (_ : unit) => eqb E a (of_int E 0) = Ok false) v n n (fun _ _ => tt) -> needs E s (h_row_expansion E x) (squares n) /\ needs E s (h_col_expansion E x) (squares n)).
Proof.
  intros T E s x v n O Gx R C. destruct (C122_strong T E false s O) as (_ & _ & _ & _ & _ & _ & _ & _ & _ & _ & Nr & Nc).
  assert (P : forall cs, need2 E s (h_cofactor_expansion E (S n) cs x) 0 (squares n)).
  { intros cs. eapply need2_of; [exact O|]. pose proof (exc_expansion E cs (S n) x (value s) v Gx) as P. rewrite R, C, Nat.eqb_refl in P. exact P. }
  split; [|split].
  - refine (proj1 (need2_dims E s x v (fun '(r, _) => h_cofactor_expansion E (S r) true x) 0 (squares n) O Gx _)). rewrite R. apply P.
  - refine (proj1 (need2_dims E s x v (fun '(r, _) => h_cofactor_expansion E (S r) false x) 0 (squares n) O Gx _)). rewrite R. apply P.
  - intros N. split; apply needs_of; auto; apply (need2_dims E s x v); auto; rewrite R; (eapply need2_of; [exact O|]); apply (exc_expansion_nonzero E _ _ x (value s) v n Gx N).
Qed.
(** += and -=, *= and /= by a scalar, setEntries, inplace_rref, ==, != and trace need none. *)
Theorem C123_in_place : forall T (E : ops T) s, owned s ->
  (forall x vals size, needs E s (h_setEntries x (fun k => Ret (read vals k)) size) 0) /\ (forall x v, needs E s (h_setEntries_val x v) 0) /\
  (forall a b, needs E s (h_add_assign E a b) 0) /\ (forall a b, needs E s (h_sub_assign E a b) 0) /\ (forall x k, needs E s (h_mul_assign E x k) 0) /\ (forall x k, needs E s (h_div_assign E x k) 0) /\
  (forall a b, needs E s (h_eq E a b) 0) /\ (forall a b, needs E s (h_ne E a b) 0) /\ (forall x, needs E s (h_inplace_rref E x) 0) /\ (forall x, needs E s (h_trace E x) 0).
Proof.
  intros T E s O.
  assert (K : forall A (p : prog T A) X, calm true X A p -> needs E s p 0).
  { intros A p X Hc. destruct (need2_of E s p 0 0 _ _ O (calm_cost E true X A p Hc (value s))) as [P _]. split; [exact P|lia]. }
  assert (Se : forall X x op i j y, X x = true -> calm true X unit (h_assign_entry op x i j y : prog T unit)) by (intros; unfold h_assign_entry; apply calm_bind; [apply calm_get|intros; apply calm_bind; [apply calm_ret; discriminate|intros; apply calm_set; assumption]]).
  repeat match goal with |- _ /\ _ => split end; intros.
  - apply (K _ _ (only x)). apply calm_bind; [apply calm_dims|]. intros [r c]. destruct (_ <? _); [apply calm_ret; discriminate|]. apply calm_for. intros i. apply calm_for. intros j. apply calm_bind; [apply calm_ret; discriminate|]. intros v. apply calm_set, here1.
  - apply (K _ _ (only x)). apply calm_bind; [apply calm_dims|]. intros [r c]. apply calm_for. intros i. apply calm_for. intros j. apply calm_bind; [apply calm_ret; discriminate|]. intros w. apply calm_set, here1.
  - apply (K _ _ (only a)). apply calm_bind; [apply calm_dims|]. intros [r c]. apply calm_bind; [apply calm_dims|]. intros [r' c']. destruct (negb _); [apply calm_ret; discriminate|]. apply calm_for. intros i. apply calm_for. intros j. apply calm_bind; [apply calm_get|]. intros v. apply Se, here1.
  - apply (K _ _ (only a)). apply calm_bind; [apply calm_dims|]. intros [r c]. apply calm_bind; [apply calm_dims|]. intros [r' c']. destruct (negb _); [apply calm_ret; discriminate|]. apply calm_for. intros i. apply calm_for. intros j. apply calm_bind; [apply calm_get|]. intros v. apply Se, here1.
  - apply (K _ _ (only x)). apply calm_bind; [apply calm_dims|]. intros [r c]. apply calm_for. intros i. apply calm_for. intros j. destruct k; [apply Se, here1|]. destruct (_ && _); [apply Se, here1|]. apply calm_bind; [apply calm_get|]. intros v. apply Se, here1.
  - apply (K _ _ (only x)). apply calm_bind; [apply calm_dims|]. intros [r c]. apply calm_for. intros i. apply calm_for. intros j. destruct k; [apply Se, here1|]. destruct (_ && _); [apply Se, here1|]. apply calm_bind; [apply calm_get|]. intros v. apply Se, here1.
  - apply (K _ _ none). apply calm_eq.
  - apply (K _ _ none). apply calm_bind; [apply calm_eq|]. intros e. apply calm_ret. discriminate.
  - apply (K _ _ (only x)). apply calm_inplace_rref, here1.
  - apply (K _ _ none). apply calm_bind; [apply calm_dims|]. intros [r c]. destruct (negb _); [apply calm_ret; discriminate|]. apply calm_fold. intros i t. apply calm_bind; [apply calm_get|]. intros v. apply calm_ret. discriminate.
Qed.

(** *** Runs: elements in use afterwards, and whether memory ran out *)
Definition out {A} (r : memory Z * ending A) := (used (fst r), match snd r with NoMem => true | _ => false end).
Definition one (r c : nat) (l : list Z) : memory Z := fst (hrun int32_ops (h_array (map Some l) r c) (mkMem [] [])).
(* inverse of a 2 x 2 matrix: 4 in use, 16 more needed, 4 of them stay *)
Example C123_ex_inverse : let f L := out (lrun int32_ops L (h_inverse int32_ops 0) (one 2 2 [1; 2; 0; 1]%Z)) in
  f 20 = (8, false) /\ f 19 = (4, true) /\ f 15 = (4, true) /\ f 7 = (4, true).
Proof. vm_compute. auto. Qed.
(* expansion of a 4 x 4 matrix without zeros: 4 + 9 beyond the 16 *)
Definition four := [1; 2; 3; 4; 5; 6; 7; 8; 9; 1; 2; 3; 4; 5; 6; 7]%Z.
Example C123_ex_expansion : let f L := out (lrun int32_ops L (h_row_expansion int32_ops 0) (one 4 4 four)) in
  squares 4 = 13 /\ f 29 = (16, false) /\ f 28 = (16, true).
Proof. vm_compute. auto. Qed.
(* with a zero first row nothing is needed *)
Example C123_ex_zero : out (lrun int32_ops 9 (h_row_expansion int32_ops 0) (one 3 3 [0; 0; 0; 1; 2; 3; 4; 5; 6]%Z)) = (9, false) /\
  out (lrun int32_ops 12 (h_col_expansion int32_ops 0) (one 3 3 [0; 0; 0; 1; 2; 3; 4; 5; 6]%Z)) = (9, true).
Proof. vm_compute. auto. Qed.
(* assignment of a 1 x 1 matrix to a 2 x 2 one needs 1 and frees 4 *)
Example C123_ex_assign : let s := fst (hrun int32_ops (h_val 1 1 5%Z) (one 2 2 [1; 2; 0; 1]%Z)) in
  used s = 5 /\ out (lrun int32_ops 6 (h_assign 0 1) s) = (2, false) /\ out (lrun int32_ops 5 (h_assign 0 1) s) = (5, true).
Proof. vm_compute. auto. Qed.
Example C123_ex_determinant : out (lrun int32_ops 18 (h_determinant int32_ops 0) (one 3 3 [2; 0; 1; 0; 3; 0; 1; 0; 1]%Z)) = (9, false) /\
  out (lrun int32_ops 17 (h_determinant int32_ops 0) (one 3 3 [2; 0; 1; 0; 3; 0; 1; 0; 1]%Z)) = (9, true) /\
  out (lrun int32_ops 4 (h_determinant int32_ops 0) (one 2 2 [1; 2; 0; 1]%Z)) = (4, false).
Proof. vm_compute. auto. Qed.

Print Assumptions C123_limit.
Print Assumptions C123_runs.
Print Assumptions C123_constructors.
Print Assumptions C123_unary.
Print Assumptions C123_binary.
Print Assumptions C123_minors.
Print Assumptions C123_square.
Print Assumptions C123_expansions.
Print Assumptions C123_in_place.
