(** Property theorems about programs of Int calls compiled without assertions, in which every
    exception is caught: C130. [call] is any call of the public interface that makes or changes
    an Int (C104); [wf x] says x has at least one bin and every bin is below 10^9. *)
From Coq Require Import ZifyBool.
From Verif Require Import Base IntModel IntSpec IntBasics IOModel IOSpec PropsInt IntHistory IntCalls ReleaseModel PropsRelease
  ReleaseCallsModel ReleaseCallsSpec ReleaseCallsProofs.
Local Open Scope list_scope.
Local Open Scope Z_scope.

(** ** C130 *)
(** Whatever the calls and whatever has been thrown and caught before, every program runs to
    its end: no call has undefined behaviour or runs for ever, every Int stays well formed, a
    call that returns has the right value, and one that throws leaves what [zleft] says. *)
Theorem C130_programs : forall p st, all_wf st -> Forall arguments_ok p ->
  exists st' es, attempt_all st p = Ok (st', es) /\ all_wf st' /\ zattempts (vals st) p es (vals st').
Proof. exact attempts_ok. Qed.
Theorem C130_call : forall st c, all_wf st -> arguments_ok c ->
  exists st' e, attempt st c = Ok (st', e) /\ all_wf st' /\ zattempt (vals st) c e (vals st').
Proof. exact attempt_ok. Qed.
(** Where the build with assertions returns, this one returns the same object. *)
Theorem C130_same : forall st c r, result st c = Ok r -> result_nd st c = (r, Ok tt).
Proof. exact call_keeps. Qed.
(** Division by zero is always reported, and changes nothing. *)
Theorem C130_zero : forall st c, all_wf st -> arguments_ok c -> divides_by_zero (vals st) c ->
  exists st', attempt st c = Ok (st', Caught DivideByZero) /\ forall n, st' n = st n.
Proof.
  intros st c Hw Ha D. pose proof (call_behaves st c Hw Ha) as G. unfold behaves, attempt in *.
  assert (E : snd (result_nd st c) = Throw DivideByZero).
  { unfold vals in D. destruct c as [| | | | | | | |o d a b|o d b]; try contradiction; destruct o; try contradiction; cbn [divides_by_zero] in D; cbn [result_nd binary_nd assign_left assign_nd].
    - destruct (div_sound_nd (st a) (st b) (Hw a) (Hw b)) as [(r & E & _ & N & _)|[(_ & _ & ->)|[_ E]]]; [contradiction|reflexivity|exfalso].
      rewrite (ReleaseProofs2.op_div_released _ _ (Hw a) (Hw b)), div_zero_any in E by auto. discriminate.
    - assert (E : op_mod_nd (st a) (st b) = Throw DivideByZero); [|rewrite E; reflexivity].
      unfold op_mod_nd, modulo_nd. destruct (abs_operand (st a) (Hw a)) as (x & -> & Wx & _). destruct (abs_operand (st b) (Hw b)) as (y & -> & Wy & _ & Vy). cbn [bind].
      rewrite (ReleaseProofs2.op_div_released _ _ Wx Wy), div_zero_any by (auto; lia). reflexivity.
    - assert (E : rd (st d) (if Nat.eqb d b then None else Some (st b)) = st b) by (destruct (Nat.eqb_spec d b) as [->|]; auto).
      unfold div_assign_nd. rewrite E. destruct (div_left_sound (st d) (st b) (Hw d) (Hw b)) as [(r & _ & _ & N & _)|[[_ ->]|(l & E2 & _)]]; [contradiction|reflexivity|exfalso].
      assert (E3 : op_div_nd (st d) (st b) = Throw OutOfRange) by (unfold op_div_nd; rewrite E2; reflexivity).
      rewrite (ReleaseProofs2.op_div_released _ _ (Hw d) (Hw b)), div_zero_any in E3 by auto. discriminate.
    - assert (E : rd (st d) (if Nat.eqb d b then None else Some (st b)) = st b) by (destruct (Nat.eqb_spec d b) as [->|]; auto).
      unfold mod_assign_nd. rewrite E. unfold modulo_nd. destruct (abs_operand (st d) (Hw d)) as (x & -> & Wx & _). destruct (abs_operand (st b) (Hw b)) as (y & -> & Wy & _ & Vy). cbn [bind].
      rewrite (ReleaseProofs2.op_div_released _ _ Wx Wy), div_zero_any by (auto; lia). reflexivity. }
  destruct (result_nd st c) as [l m]. cbn [fst snd] in *. subst m. destruct G as [-> _]. eexists. split; [reflexivity|].
  intros n. unfold upd. destruct (Nat.eqb_spec n (dest c)) as [->|]; reflexivity.
Qed.
(** When x += y and x -= y throw: the magnitudes are to be subtracted and the smaller one is
    stored in more bins than the larger one. *)
Theorem C130_sum_throws : forall (s : bool) x other, wf x -> (forall y, other = Some y -> wf y) ->
  snd ((if s then sub_assign_left else add_assign_left) x other) = Throw OutOfRange <->
  (negative x = negative (rd x other) <-> s = true) /\
  (if Z.abs (val (rd x other)) <? Z.abs (val x) then (length (bins x) < length (bins (rd x other)))%nat else (length (bins (rd x other)) < length (bins x))%nat).
Proof.
  intros s x other Hx Ho. assert (Hy : wf (rd x other)) by (destruct other; cbn; auto).
  rewrite !abs_val by auto. fold (size x) (size (rd x other)).
  replace ((if s then sub_assign_left else add_assign_left) x other) with (addsub_left 3 s x other) by (destruct s; reflexivity).
  rewrite (sum_throws s x other Hx Ho). destruct s, (negative x), (negative (rd x other)); cbn; intuition congruence.
Qed.
(** So an exception may change the value of an Int: what `+=` leaves of -5 is 5. *)
Theorem C130_kept_refuted : exists st c st', all_wf st /\ arguments_ok c /\ attempt st c = Ok (st', Caught OutOfRange) /\
  vals st (dest c) = -5 /\ vals st' (dest c) = 5.
Proof.
  exists (fun n => if Nat.eqb n 0 then mkInt [5] true else mkInt [0; 0] false), (Assign Add 0 1). eexists. split; [|split; [exact I|split; [reflexivity|split; reflexivity]]].
  intros n. destruct (Nat.eqb n 0); split; cbn; try discriminate; repeat constructor; unfold digit_ok; lia.
Qed.

(** From Ints that are all zero: v0 *= 10^9 leaves a zero of two bins, v2 = -5; v2 += v0
    throws and leaves 5; v3 = 10^27 + 7, v3 /= 7 * 10^9 throws and leaves 7; then v2 *= v3. *)
Definition C130_prog : list call :=
  [Make 1 (10 ^ 9) 0; Assign Mul 0 1; Make 2 (-5) 0; Assign Add 2 0; Make 3 1 3; Make 4 7 0; Assign Add 3 4;
   Make 5 7 1; Assign Div 3 5; Assign Mul 2 3; Assign Mod 2 6; Scale 2 9].
Example C130_ex : match attempt_all (fun _ => mkInt [0] false) C130_prog with
  | Ok (st, es) => map st [0; 2; 3]%nat = [mkInt [0; 0] false; mkInt [0; 35] false; mkInt [7] false] /\
      es = [Finished; Finished; Finished; Caught OutOfRange; Finished; Finished; Finished; Finished; Caught OutOfRange; Finished; Caught DivideByZero; Finished]
  | _ => False
  end.
Proof. vm_compute. auto. Qed.
(** With assertions the same program stops at the first of these. *)
Example C130_ex_assert : perform_all (fun _ => mkInt [0] false) C130_prog = Abort.
Proof. vm_compute. reflexivity. Qed.
Example C130_ex_args : Forall arguments_ok C130_prog /\ all_wf (fun _ => mkInt [0] false).
Proof.
  split; [repeat constructor; cbn; unfold INT64_MIN, INT64_MAX, INT32_MIN, INT32_MAX; lia|].
  intros n. split; [discriminate|]. repeat constructor; unfold digit_ok; lia.
Qed.
Example C130_ex_left : sub_assign_left (mkInt [0; 7] false) (Some (mkInt [1; 0; 0] false)) = (mkInt [999999999; 6] false, Throw OutOfRange) /\
  sub_assign_left (mkInt [3; 0; 0] true) (Some (mkInt [7] true)) = (mkInt [3; 0; 0] false, Throw OutOfRange) /\
  sub_assign_left (mkInt [3; 0] false) (Some (mkInt [7; 0; 0] false)) = (mkInt [4] true, Ok tt) /\
  div_assign_nd (mkInt [9; 8; 0; 5; 0] true) (Some (mkInt [0; 6] false)) = (mkInt [9; 8] true, Throw OutOfRange) /\
  times_power_ten_nd (mkInt [123; 45; 0; 1] true) (-11) = (mkInt [45] true, Throw OutOfRange).
Proof. vm_compute. auto 10. Qed.
Print Assumptions C130_programs.
Print Assumptions C130_call.
Print Assumptions C130_same.
Print Assumptions C130_zero.
Print Assumptions C130_sum_throws.
Print Assumptions C130_kept_refuted.
