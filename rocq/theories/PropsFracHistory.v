(** C42: whole histories of Frac operations (programs of FracHistory.v). *)
From Coq Require Import QArith Qpower Ascii String ZifyBool.
From Verif Require Import Base IntModel IntSpec IntBasics IntPowExact IOModel IOSpec FracModel FracSpec FracProofs FracIO PropsFrac FracHistory.
Local Open Scope Z_scope.

(** The run stops at an assertion, or every variable ends up reduced and equal to
    what the program computes over Q. *)
Theorem C42_history_values_partial : forall p st qs qs', fdenotes st qs -> qrun qs p qs' ->
  frun st p = Abort \/ exists st', frun st p = Ok st' /\ fdenotes st' qs'.
Proof. exact frun_ok. Qed.
(** Without `/=` : every program, also with divisions by zero and malformed
    strings, ends normally with every variable reduced, or with
    divide_by_zero_error, invalid_argument or an assertion. *)
Theorem C42_reduced_histories : forall p st, (forall n, reduced (st n)) -> Forall clean p ->
  match frun st p with
  | Ok st' => forall n, reduced (st' n)
  | Throw e => e = DivideByZero \/ e = InvalidArgument
  | Abort => True
  | UB => False
  | OutOfFuel => False
  end.
Proof.
  intros p st H1 H2. pose proof (frun_acceptable p st H1 H2) as H.
  destruct (frun st p) as [st'|[]| | |]; cbn in H; auto; contradiction.
Qed.
(** a = 84/-126; b = a; b /= b; a ^= 3; c = 2 - a; c *= c; d = c ^ -2; d -= 1 *)
Definition zero_store : nat -> Frac := fun _ => mkFrac (mkInt [0] false) (mkInt [1] false).
Definition fprog : list finstr :=
  [HMake 0 (i 84) (i (-126)); HCopy 1 0; HAssign FDiv 1 1; HPowAssign 0 (i 3); HIntL FSub 2 (i 2) 0; HAssign FMul 2 2;
   HPow 3 2 (i (-2)); HIAssign FSub 3 (i 1); HString 4 (list_ascii_of_string "-1/3"); HAssign FAdd 4 0; HRecip 5 4].
Example C42_ex : exists st', frun zero_store fprog = Ok st' /\
  map st' [0; 1; 2; 3; 4; 5]%nat = [fr (-8) 27; fr 1 1; fr 3844 729; fr (-14244895) 14776336; fr (-17) 27; fr (-27) 17].
Proof. eexists. split; vm_compute; reflexivity. Qed.
Example C42_ex_values : exists qs', qrun (fun _ => 0%Q) fprog qs' /\ (qs' 5%nat == - (27 # 17))%Q /\ fdenotes zero_store (fun _ => 0%Q).
Proof.
  eexists. splits.
  - unfold fprog.
    eapply qr_cons; [apply qe_make; [exc|exc|discriminate]|].
    eapply qr_cons; [apply qe_copy|].
    eapply qr_cons; [apply qe_assign, q_div; discriminate|].
    eapply qr_cons; [apply qe_powassign; [exc|discriminate|apply small_exact_exponent; change (val (i 3)) with 3; lia]|].
    eapply qr_cons; [apply qe_intl; [exc|apply q_sub]|].
    eapply qr_cons; [apply qe_assign, q_mul|].
    eapply qr_cons; [apply qe_pow; [exc|apply small_exact_exponent; change (val (i (-2))) with (-2); lia|intros H; exfalso; vm_compute in H; discriminate]|].
    eapply qr_cons; [apply qe_iassign; [exc|apply q_sub]|].
    eapply qr_cons; [apply (qe_string _ _ _ (-1) 3); [|discriminate]|].
    { change (list_ascii_of_string "-1/3") with (["-"%char; "1"%char] ++ "/"%char :: ["3"%char])%list. apply fs_frac.
      - apply (it_neg ["1"%char] 1). apply (numeral_one "1"%char 1). reflexivity.
      - apply (it_pos ["3"%char] 3). apply (numeral_one "3"%char 3). reflexivity. }
    eapply qr_cons; [apply qe_assign, q_add|].
    eapply qr_cons; [apply qe_recip; intros H; vm_compute in H; discriminate|].
    apply qr_nil.
  - vm_compute. reflexivity.
  - intros n. split; [apply zero_frac|reflexivity].
Qed.
Example C42_ex_clean : Forall clean [HMake 0 (i 84) (i 0); HAssign FAdd 1 1; HBin FDiv 1 0 0].
Proof. apply Forall_cons; [split; exc|]. apply Forall_cons; [exact I|]. apply Forall_cons; [exact I|apply Forall_nil]. Qed.
(** The run can stop at an assertion although nothing is divided by zero. *)
Theorem C42_history_refuted : exists qs', qrun (fun _ => 0%Q) [HMake 0 e18 (i 3)] qs' /\ frun zero_store [HMake 0 e18 (i 3)] = Abort.
Proof.
  eexists. split; [|vm_compute; reflexivity].
  eapply qr_cons; [apply qe_make; [exc|exc|discriminate]|apply qr_nil].
Qed.
(** Dividing by zero in place yields 1/0 and the program goes on. *)
Example C42_ex_div_assign : exists st', frun zero_store [HMake 0 (i 3) (i 4); HIAssign FDiv 0 (i 0)] = Ok st' /\ st' 0%nat = fr 1 0.
Proof. eexists. split; vm_compute; reflexivity. Qed.
Print Assumptions C42_history_values_partial.
Print Assumptions C42_reduced_histories.
Print Assumptions C42_history_refuted.
