(** Property theorems about programs of Frac calls compiled without assertions, in which every
    exception is caught: C131. A Frac is seen as the pair of its numerator and denominator;
    [wfrac f] says both Ints have at least one bin and every bin is below 10^9. They need not be
    reduced, and the denominator may be 0 or negative. *)
From Coq Require Import ZArith Lia String Ascii.
From Verif Require Import Base IntModel IntSpec IntBasics IOModel IOSpec FracModel FracSpec PropsFrac FracHistory ReleaseModel FracReleaseModel PropsFracRelease
  CatchModel ReleaseCallsSpec FracReleaseCallsModel FracReleaseCallsSpec FracReleaseCallsProofs.
Local Open Scope list_scope.
Local Open Scope Z_scope.

(** ** C131 *)
(** Whatever the calls and whatever has been thrown and caught before, every program runs to its
    end: no call has undefined behaviour or runs for ever, every Frac stays well formed, a call
    that returns has the right value in lowest terms, a comparison answers, and a call that
    throws leaves what [pexec] says. *)
Theorem C131_programs : forall p st, all_wfrac st -> Forall int_operands p ->
  exists st' evs, nrun st p = Ok (st', evs) /\ all_wfrac st' /\ prun (prs st) p evs (prs st').
Proof. exact program_goes. Qed.
Theorem C131_call : forall st s, all_wfrac st -> int_operands s ->
  exists st' ev, nexec st s = Ok (st', ev) /\ all_wfrac st' /\ pexec (prs st) s ev (prs st').
Proof. exact call_goes. Qed.
(** Where the build with assertions returns or answers, this one does the same. *)
Theorem C131_same : forall st s st' ev, cexec st s = Ok (st', ev) -> (forall e, ev <> Caught e) -> nexec st s = Ok (st', ev).
Proof. exact call_same. Qed.
(** A text that is no fraction, or whose denominator is 0, is always refused. *)
Theorem C131_text : forall st v t, (forall n d, frac_string t n d -> d = 0) -> nexec st (Do (HString v t)) = Ok (st, Caught InvalidArgument).
Proof. intros st v t H. cbn [nexec]. rewrite (string_bad t H). reflexivity. Qed.
(** A value in lowest terms is one pair only, of the value n/d. *)
Theorem C131_value : forall n d q, lowest n d q -> d <> 0 -> 0 < snd q /\ Z.gcd (fst q) (snd q) = 1 /\ n * snd q = fst q * d.
Proof. exact lowest_value. Qed.
Theorem C131_unique : forall n d q q', lowest n d q -> lowest n d q' -> d <> 0 -> q = q'.
Proof. exact lowest_unique. Qed.
(** An exception may change the value of a Frac: what += 0 leaves of -5/1000000001 can be
    5/1000000001. *)
Theorem C131_kept_refuted : exists st s st', all_wfrac st /\ int_operands s /\ nexec st s = Ok (st', Caught OutOfRange) /\
  prs st 0%nat = (-5, 1000000001) /\ prs st' 0%nat = (5, 1000000001).
Proof.
  exists (fun _ => mkFrac (mkInt [5] true) (mkInt [1; 1] false)), (Do (HIAssign FAdd 0 (mkInt [0; 0] false))). eexists. 
  split; [|split; [|split; [vm_compute; reflexivity|split; reflexivity]]].
  - intros n. split; split; cbn; try discriminate; repeat constructor; unfold digit_ok; lia.
  - split; cbn; try discriminate; repeat constructor; unfold digit_ok; lia.
Qed.

(** v0 = -5/(10^9+1); v0 += a zero of two bins throws and leaves 5/(10^9+1); v1 = (10^27+7)/(7*10^9)
    throws and leaves v1 as it was, v1 /= 7*10^9 throws and leaves it unreduced; 0/0 by division in
    place; 0/0 == 0/0; it stays 0/0 and has no reciprocal; v0 ^= -2 squares; no such text. *)
Definition C131_prog : list stmt :=
  [Do (HMake 0 (mkInt [5] true) (mkInt [1; 1] false)); Do (HIAssign FAdd 0 (mkInt [0; 0] false));
   Do (HMake 1 (mkInt [7; 0; 0; 1] false) (mkInt [0; 7] false)); Do (HOfInt 1 (mkInt [7; 0; 0; 1] false));
   Do (HIAssign FDiv 1 (mkInt [0; 7] false)); Cmp CLt 0 1; Do (HIAssign FSub 1 (mkInt [3] false));
   Do (HAssign FDiv 2 2); Cmp CEq 2 2; Do (HAssign FAdd 2 0); Do (HRecip 3 2);
   Do (HPowAssign 0 (mkInt [2] true)); Do (HString 3 (list_ascii_of_string "6/x"))].
Definition C131_start : nat -> Frac := fun _ => mkFrac (mkInt [0] false) (mkInt [1] false).
Example C131_ex : match nrun C131_start C131_prog with
  | Ok (st, es) =>
      map (prs st) [0; 1; 2; 3]%nat = [(25, 1000000001 ^ 2); (10 ^ 27 + 7 - 21 * 10 ^ 9, 7 * 10 ^ 9); (0, 0); (0, 1)] /\
      es = [Done; Caught OutOfRange; Caught OutOfRange; Done; Caught OutOfRange; Said true; Done; Caught DivideByZero; Said true;
            Caught DivideByZero; Caught DivideByZero; Done; Caught InvalidArgument]
  | _ => False
  end.
Proof. vm_compute. auto. Qed.
(** With assertions the same program stops at the first of these. *)
Example C131_ex_assert : crun C131_start C131_prog = Abort.
Proof. vm_compute. reflexivity. Qed.
Example C131_ex_args : Forall int_operands C131_prog /\ all_wfrac C131_start.
Proof.
  split; [repeat constructor; try discriminate; unfold digit_ok; lia|].
  intros n. split; (split; [discriminate|]); repeat constructor; unfold digit_ok; lia.
Qed.
(** Digits of the numerator lost, and digits of the denominator: dividing 5 * 10^27 + 4 * 10^9 by itself throws. *)
Example C131_ex_left :
  F_mul_assign_nd (mkFrac (mkInt [0; 4; 0; 5] true) (mkInt [1] false)) (Some (mkFrac (mkInt [1] false) (mkInt [0; 4; 4; 5; 5] false))) =
    (mkFrac (mkInt [0; 4] true) (mkInt [0; 4; 4; 5; 5] false), Throw OutOfRange) /\
  F_mul_assign_nd (mkFrac (mkInt [1] true) (mkInt [0; 4; 0; 5] false)) (Some (mkFrac (mkInt [0; 4; 4; 5; 5] false) (mkInt [1] false))) =
    (mkFrac (mkInt [1; 1] true) (mkInt [0; 4] false), Throw OutOfRange).
Proof. vm_compute. auto. Qed.
Example C131_ex_lowest : lowest (-6) (-4) (3, 2) /\ lowest 6 0 (1, 0) /\ ~ lowest 0 0 (0, 0) /\ ~ lowest 6 4 (6, 4).
Proof.
  splits.
  - split; [discriminate|]. split; [cbn; lia|]. exists (-1). splits; [right; reflexivity|reflexivity|reflexivity].
  - split; [discriminate|]. split; [cbn; lia|]. exists 1. splits; [left; reflexivity|reflexivity|reflexivity].
  - intros [H _]. apply H. reflexivity.
  - intros (_ & _ & s & [-> | ->] & H & _); vm_compute in H; discriminate.
Qed.
Print Assumptions C131_programs.
Print Assumptions C131_call.
Print Assumptions C131_same.
Print Assumptions C131_text.
Print Assumptions C131_value.
Print Assumptions C131_unique.
Print Assumptions C131_kept_refuted.
