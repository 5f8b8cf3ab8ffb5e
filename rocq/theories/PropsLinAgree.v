(** C137: Vec<Int> and Mat<Int> with and without assertions. *)
From Verif Require Import Base IntModel IntSpec ElemModel VecModel MatModel LinSpec LinCalls ContReleaseModel LinReleaseModel LinAgreeProofs.
Local Open Scope Z_scope.

(** Every Int that an object holds is well formed; it may have leading zero bins. *)
Definition well_formed (st : objects Int) : Prop :=
  (forall n, wf (sc st n)) /\ (forall n, Forall wf (ve st n)) /\ (forall n, Forall (fun o => match o with Some x => wf x | None => True end) (data (ma st n))).
(** Literals fit std::int64_t. *)
Definition literal_fits (c : lcall) : Prop := match c with Lit _ k => - 2 ^ 63 < k < 2 ^ 63 | _ => True end.
Lemma literals p : Forall literal_fits p -> Forall literal_ok p.
Proof. apply Forall_impl. intros [] H; try exact I. exact (conj (proj1 H) (proj1 (Z.lt_le_pred _ _) (proj2 H))). Qed.

(** One call: a build with assertions that does not fail one does what the build without them does,
    and what it throws and leaves behind are the same too. *)
Theorem C137_call : forall st c, well_formed st -> literal_fits c -> snd (perform Int_ops st c) <> Abort ->
  nd_perform st c = perform Int_ops st c /\ well_formed (fst (perform Int_ops st c)).
Proof. intros st c H L. exact (int_tracks st c H (Forall_inv (literals [c] (Forall_cons c L (Forall_nil _))))). Qed.
Print Assumptions C137_call.
(** Programs of all 55 kinds of calls, every exception caught *)
Theorem C137_programs : forall st p, well_formed st -> Forall literal_fits p -> execute Int_ops st p <> Abort -> nd_execute st p = execute Int_ops st p.
Proof. intros st p H L. exact (int_same p st H (literals p L)). Qed.
Print Assumptions C137_programs.
(** The two builds part no earlier than at the first assertion that fails. *)
Theorem C137_until : forall st p q s l, well_formed st -> Forall literal_fits p -> execute Int_ops st p = Ok (s, l) ->
  nd_execute st (p ++ q) = ' (s', l') <- nd_execute s q ;; Ok (s', l ++ l').
Proof. intros st p q s l H L. exact (int_until st p q s l H (literals p L)). Qed.
Print Assumptions C137_until.

Definition nothing : objects Int := mkObjects (fun _ => int_const 0) (fun _ => []) (fun _ => mkMat 0 0 []) (fun _ => false).
Example C137_nothing : well_formed nothing.
Proof. split; [|split]; intros n; cbn; auto. split; [discriminate|repeat constructor; discriminate]. Qed.
(** det [2 1 0; 4 3 1; 0 5 7] = 4, its reduced form computed with integer division, a division by zero
    that is caught, and d /= d[0] of [6; 9]. *)
Definition mixed : list lcall :=
  [Lit 0 2; Lit 1 1; Lit 2 0; Lit 3 4; Lit 4 3; Lit 5 5; Lit 6 7; Lit 7 6; Lit 8 9;
   MNew 0 3 3 2; MSet 0 0 0 0; MSet 0 0 1 1; MSet 0 1 0 3; MSet 0 1 1 4; MSet 0 1 2 1; MSet 0 2 1 5; MSet 0 2 2 6;
   MDet 9 0; MRrefA 0; MGet 10 0 0 0; MDivA 0 2; VNew 0 2; VSet 0 0 7; VSet 0 1 8; VDivOwn 0 0].
Definition seen (r : res (objects Int * list (option exn))) : option (list Z * list Z * list (option exn)) :=
  match r with Ok (st, l) => Some (map val [sc st 9; sc st 10], map val (ve st 0), skipn 17 l) | _ => None end.
Example C137_mixed : seen (execute Int_ops nothing mixed) = seen (nd_execute nothing mixed) /\
  seen (nd_execute nothing mixed) = Some ([4; 1], [1; 9], [None; None; None; Some DivideByZero; None; None; None; None]).
Proof. split; vm_compute; reflexivity. Qed.
(** A program may fail an assertion where, without assertions, it returns without an exception: 0 *= 10^9
    leaves a zero of two bins, which is then subtracted from 7000000005. *)
Definition needless : list lcall := [Lit 0 7000000005; Lit 1 (10 ^ 9); Lit 2 0; VConst 0 1 2; VMulA 0 1; VConst 1 1 0; VAssign Minus 1 0; VGet 3 1 0].
Theorem C137_converse_refuted : ~ (forall st p s l, well_formed st -> Forall literal_fits p -> nd_execute st p = Ok (s, l) -> ~ In (Some OutOfRange) l -> execute Int_ops st p <> Abort).
Proof.
  intros H. destruct (nd_execute nothing needless) as [[s l]|e| | |] eqn:E; try (vm_compute in E; discriminate).
  apply (H nothing needless s l C137_nothing); auto.
  - repeat constructor.
  - vm_compute in E. injection E as _ <-. cbn. intuition discriminate.
Qed.
Print Assumptions C137_converse_refuted.
