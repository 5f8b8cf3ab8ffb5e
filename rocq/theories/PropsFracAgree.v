(** C139: programs of Frac calls with and without assertions, every exception caught. *)
From Coq Require Import ZArith Lia String Ascii.
From Verif Require Import Base IntModel IntSpec IntBasics IOModel FracModel FracSpec PropsFrac FracHistory CatchModel ReleaseModel FracReleaseModel PropsFracRelease
  FracReleaseCallsModel FracReleaseCallsSpec FracReleaseCallsProofs FracAgreeProofs.
Local Open Scope list_scope.
Local Open Scope Z_scope.

(** One statement: with assertions it fails one, or it shows the same event and leaves the same Fracs,
    down to their bins, as without them. The Fracs need not be reduced and may be 1/0 or 0/0. *)
Theorem C139_statement : forall st s, all_wfrac st -> int_operands s -> cexec st s = Abort \/ nexec st s = cexec st s.
Proof. exact statement_same. Qed.
Print Assumptions C139_statement.
(** Programs: with assertions one fails, or the program runs to its end as it does without them, and
    every statement does what [pexec] says (C131). *)
Theorem C139_programs : forall p st, all_wfrac st -> Forall int_operands p ->
  crun st p = Abort \/ exists st' evs, crun st p = Ok (st', evs) /\ nrun st p = Ok (st', evs) /\ all_wfrac st' /\ prun (prs st) p evs (prs st').
Proof. exact frac_program_does. Qed.
Print Assumptions C139_programs.
(** The two builds part no earlier than at the first assertion that fails. *)
Theorem C139_until : forall p q st s l, all_wfrac st -> Forall int_operands p -> crun st p = Ok (s, l) -> nrun st (p ++ q) = b <- nrun s q ;; Ok (fst b, l ++ snd b).
Proof. exact frac_program_until. Qed.
Print Assumptions C139_until.
(** They may part although nothing is thrown without assertions: subtracting a zero of two bins from
    7000000001/2000000001 in place. *)
Definition C139_big : nat -> Frac := fun _ => mkFrac (mkInt [1; 7] false) (mkInt [1; 2] false).
Lemma C139_big_ok : all_wfrac C139_big /\ int_operands (Do (HIAssign FSub 0 (mkInt [0; 0] false))).
Proof.
  split; [intros n; unfold C139_big; split|]; split; cbn; try discriminate; repeat constructor; unfold digit_ok; lia.
Qed.
Theorem C139_converse_refuted : ~ (forall st s st', all_wfrac st -> int_operands s -> nexec st s = Ok (st', Done) -> cexec st s <> Abort).
Proof.
  intros H. assert (E : exists st', nexec C139_big (Do (HIAssign FSub 0 (mkInt [0; 0] false))) = Ok (st', Done)) by (eexists; vm_compute; reflexivity).
  destruct E as [st' E]. refine (H C139_big _ st' (proj1 C139_big_ok) (proj2 C139_big_ok) E _). vm_compute. reflexivity.
Qed.
Print Assumptions C139_converse_refuted.

(** v0 = -6/4; v1 = 0 / 0 in place; adding v0 to it throws and leaves 0/0; no reciprocal; no such text;
    0/0 == 0/0 and not 0/0 < -3/2; v0 ^= -3; v2 = "10/4"; v2 -= 3; 0 to a negative power. *)
Definition C139_start : nat -> Frac := fun _ => mkFrac (mkInt [0] false) (mkInt [1] false).
Definition C139_prog : list stmt :=
  [Do (HMake 0 (mkInt [6] true) (mkInt [4] false)); Do (HAssign FDiv 1 1); Do (HAssign FAdd 1 0); Do (HRecip 2 1); Do (HString 2 (list_ascii_of_string "6/x"));
   Cmp CEq 1 1; Cmp CLt 1 0; Do (HPowAssign 0 (mkInt [3] true)); Do (HString 2 (list_ascii_of_string "10/4")); Do (HIAssign FSub 2 (mkInt [3] false));
   Do (HPow 3 3 (mkInt [2] true))].
Example C139_ex : match crun C139_start C139_prog, nrun C139_start C139_prog with
  | Ok (st, es), Ok (st', es') =>
      map (prs st) [0; 1; 2; 3]%nat = [(-27, 8); (0, 0); (-1, 2); (0, 1)] /\ map st [0; 1; 2; 3]%nat = map st' [0; 1; 2; 3]%nat /\ es = es' /\
      es = [Done; Caught DivideByZero; Caught DivideByZero; Caught DivideByZero; Caught InvalidArgument; Said true; Said false; Done; Done; Done; Caught DivideByZero]
  | _, _ => False
  end.
Proof. vm_compute. auto. Qed.
Example C139_ex_operands : Forall int_operands C139_prog /\ all_wfrac C139_start.
Proof.
  split; [repeat constructor; cbn; try discriminate; unfold digit_ok; lia|].
  intros n. unfold C139_start. split; split; cbn; try discriminate; repeat constructor; unfold digit_ok; lia.
Qed.
