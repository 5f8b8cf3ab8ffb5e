(** C108: what Mat(rows, cols) holds, for the four element types. *)
From Coq Require Import QArith SpecFloat.
From Verif Require Import Base IntModel IntSpec IntBasics IntMul IOModel FracModel FracSpec ElemModel ElemSpec ElemProofs ElemInst VecModel MatModel MatSpec MatProofs
  DoubleModel UnsetProofs.
Local Open Scope list_scope.
Local Open Scope nat_scope.

(** Int and Frac have default constructors: the matrix is zero. *)
Theorem C108_zero : forall r c,
  mat_of (fun x a => canonical x /\ val x = a) (Mat_new Int_ops r c) r c (fun _ _ => 0%Z) /\
  mat_of (fun x a => reduced x /\ Qeq (Fval x) a) (Mat_new Frac_ops r c) r c (fun _ _ => 0%Q).
Proof.
  assert (G : forall T (E : ops T) r c x, fresh E = Some x -> forall i j, i < r -> j < c -> nth_error (data (Mat_new E r c)) (i * c + j) = Some (Some x)).
  { intros T E r c x H i j Hi Hj. cbn [data Mat_new]. rewrite H, (nth_error_nth' _ (Some x)) by (rewrite repeat_length; nia). f_equal. apply nth_repeat. }
  intros r c. split; (split; [reflexivity|split; [reflexivity|split; [apply repeat_length|]]]); intros i j Hi Hj.
  - exists Int_default. split; [apply (G _ Int_ops); auto|]. split; [apply canonical_zero|reflexivity].
  - exists (frac_const 0). split; [apply (G _ Frac_ops); auto|]. destruct (Frac_const_exact 0) as [H1 H2]; [lia|]. split; [exact H1|exact H2].
Qed.

(** int and double have none: every entry is indeterminate. *)
Theorem C108_unset : forall r c i j, i < r -> j < c ->
  entry (Mat_new int32_ops r c) i j = UB /\ entry (Mat_new double_ops r c) i j = UB.
Proof. intros r c i j Hi Hj. rewrite !new_entry by auto. split; reflexivity. Qed.

(** Writing entries of a matrix, in any order and any number of times: an entry holds the
    last value written to it, or what it held before. *)
Theorem C108_writes : forall T r c (m : Mat T) l, dims m r c -> Forall (fun w => fst (fst w) < r /\ snd (fst w) < c) l ->
  forall i j, i < r -> j < c ->
  (forall x l1 l2, l = l1 ++ (i, j, x) :: l2 -> (forall y, ~ In (i, j, y) l2) -> entry (writes l m) i j = Ok x) /\
  ((forall y, ~ In (i, j, y) l) -> entry (writes l m) i j = entry m i j).
Proof.
  intros T r c m l D F i j Hi Hj. destruct (writes_get r c l m i j D F Hi Hj) as [_ ->].
  assert (N : forall l : list (nat * nat * T), (forall y, ~ In (i, j, y) l) -> last_write i j l = None).
  { clear. induction l as [|[[p q] x] l IH]; intros H; cbn; [reflexivity|]. rewrite IH by (intros y Hy; apply (H y); right; exact Hy).
    destruct (Nat.eqb_spec p i), (Nat.eqb_spec q j); cbn; auto. subst. destruct (H x). left. reflexivity. }
  split.
  - intros x l1 l2 -> Hl. assert (G : last_write i j (l1 ++ (i, j, x) :: l2) = Some x); [|now rewrite G].
    clear F. induction l1 as [|[[p q] y] l1 IH]; cbn; [|now rewrite IH]. rewrite N by exact Hl. rewrite !Nat.eqb_refl. reflexivity.
  - intros H. rewrite N by exact H. reflexivity.
Qed.

(** With one entry that was never set, every function that reads all entries is undefined:
    copying, printing, transposing, negating, sums, differences and multiples. *)
Definition unusable {T} (E : ops T) (m : Mat T) (r c : nat) : Prop :=
  Mat_copy E m = UB /\ (forall pr o, M_print E pr o m = UB) /\ transpose E m = UB /\ M_neg E m = UB /\
  (forall b, dims b r c -> M_add E m b = UB /\ M_add E b m = UB /\ M_sub E m b = UB /\ M_sub E b m = UB) /\
  (forall s, M_scale E s m = UB /\ M_div E m s = UB).
Lemma quiet_unusable T (E : ops T) m r c i j : quiet E -> dims m r c -> i < r -> j < c -> entry m i j = UB -> unusable E m r c.
Proof.
  intros Q D Hi Hj U. split; [eapply copy_unset; eauto|]. split; [intros; eapply print_unset; eauto|]. split; [eapply transpose_unset; eauto|].
  split; [eapply neg_unset; eauto|]. split; [|intros; eapply scale_unset; eauto].
  intros b Db. pose proof (q_add E Q). pose proof (q_sub E Q). splits; eapply binary_unset; eauto.
Qed.
Theorem C108_unset_used :
  (forall m r c i j, dims m r c -> i < r -> j < c -> entry m i j = UB -> unusable int32_ops m r c) /\
  (forall m r c i j, dims m r c -> i < r -> j < c -> entry m i j = UB -> unusable double_ops m r c).
Proof. split; intros m r c i j; apply quiet_unusable; [apply quiet_int32|apply quiet_double]. Qed.
(** A matrix all of whose entries have been set is copied. *)
Theorem C108_filled : forall T (E : ops T) m r c g, mat_of eq m r c g -> exists d, Mat_copy E m = Ok d /\ mat_of eq d r c g.
Proof. intros T E m r c g H. destruct (Mat_copy_ok E never eq m r c g H) as [(d & H1 & H2)|(h & [] & _)]; eauto. Qed.

Example C108_ex :
  let m := Mat_new int32_ops 2 2 in let l := [(1, 1, 4%Z); (0, 0, 1%Z); (0, 1, 7%Z); (1, 0, 3%Z); (0, 1, 2%Z)] in
  entry (Mat_new Int_ops 2 2) 1 0 = Ok Int_default /\ M_add int32_ops m m = UB /\ M_eq int32_ops m m = UB /\
  Mat_copy int32_ops (fst (set_entry m 0 1 5%Z)) = UB /\ entry (fst (set_entry m 0 1 5%Z)) 0 1 = Ok 5%Z /\
  Mat_copy int32_ops (writes l m) = Ok (mkMat 2 2 [Some 1; Some 2; Some 3; Some 4]%Z) /\ determinant int32_ops (writes l m) = Ok (-2)%Z /\
  trace int32_ops m = UB /\ determinant int32_ops m = UB /\ Mat_copy int32_ops (Mat_new int32_ops 0 3) = Ok (Mat_new int32_ops 0 3) /\
  Mat_copy double_ops (Mat_new double_ops 1 1) = UB.
Proof. vm_compute. auto 20. Qed.
Print Assumptions C108_zero.
Print Assumptions C108_unset.
Print Assumptions C108_writes.
Print Assumptions C108_unset_used.
Print Assumptions C108_filled.
