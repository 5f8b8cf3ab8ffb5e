(** Property theorems about programs of calls of Factor, Term and Poly compiled without
    assertions, in which every exception is caught: C135. [wobjects s] says that exponents are
    Ints as the library makes them, that the keys of each map are sorted names of its factors and
    that coefficients are pairs of Ints with at least one bin and every bin below 10^9: they need
    not be reduced, and a denominator may be 0 or negative. *)
From Coq Require Import ZArith Lia String Ascii List Permutation.
From Verif Require Import Base IntModel IntSpec IntBasics IOModel FracModel ElemModel PolyModel PolySpec PolyProofs PolyCalls CatchModel ReleaseModel FracReleaseModel FracHistory
  FracReleaseCallsSpec FracReleaseCallsProofs PolyReleaseModel PolyReleaseCallsModel PolyReleaseCallsSpec PolyReleaseCallsProofs PropsFrac PropsPoly PropsPolyCalls.
Import ListNotations.
Local Open Scope list_scope.
Local Open Scope Z_scope.

(** ** C135 *)
(** Whatever the calls and whatever has been thrown and caught before: a program stops early only
    with the undefined behaviour of a call that looks for a place among the terms of a Poly;
    otherwise it runs to its end, every object stays well formed and each call does what
    [pcall_does] says. *)
Theorem C135_programs : forall l s, wobjects s -> Forall wargs l ->
  (nd_calls s l = UB /\ exists c, In c l /\ adds c = true) \/
  exists s' evs, nd_calls s l = Ok (s', evs) /\ wobjects s' /\ program_does (see s) l evs (see s').
Proof. exact calls_do. Qed.
Theorem C135_call : forall s c, wobjects s -> wargs c ->
  (nd_call s c = UB /\ adds c = true) \/
  exists s' ev, nd_call s c = Ok (s', ev) /\ wobjects s' /\ pcall_does (see s) c ev (see s').
Proof. exact call_does. Qed.
(** A call that does no arithmetic on coefficients throws nothing, and so does one that adds or
    subtracts two factors; the others throw only divide_by_zero and out_of_range. *)
Theorem C135_thrown : forall s c s' ev, wobjects s -> wargs c -> nd_call s c = Ok (s', ev) ->
  ev = Done \/ PolyCalls.computes c = true /\ (ev = Caught DivideByZero \/ ev = Caught OutOfRange).
Proof. exact call_throws. Qed.
(** divide_by_zero is thrown only if a denominator is 0 *)
Theorem C135_zero : forall s c s' , (forall a, snd (pr (coeff (T s a))) <> 0) -> (forall a t, In t (P s a) -> snd (pr (coeff t)) <> 0) ->
  wobjects s -> wargs c -> nd_call s c <> Ok (s', Caught DivideByZero).
Proof. exact call_zero. Qed.
(** What a call does with assertions it does without them. *)
Theorem C135_same : forall s c s', run_call s c = Ok s' -> nd_call s c = Ok (s', Done).
Proof. exact same_call. Qed.
(** A caught exception may change the value of a Term: t *= u multiplies the monomial and then
    loses digits of the coefficient. *)
Definition C135_start : objects :=
  mkObjects (fun _ => fx 1) (fun a => mkTerm (if Nat.eqb a 0 then mkFrac (mkInt [0; 4; 0; 5] true) (mkInt [1] false) else mkFrac (mkInt [1] false) (mkInt [0; 4; 4; 5; 5] false)) [(nm "x", fx 1)]) (fun _ => []).
Lemma C135_start_ok : wobjects C135_start.
Proof.
  assert (H : factor_ok (fx 1)) by (apply canonicalb_spec; reflexivity). split; [intros a; exact H|]. split; [|intros a; constructor]. intros a. split; [|exact (unit_map (fx 1) H)].
  cbn [C135_start T coeff]. destruct (Nat.eqb a 0); split; split; cbn [top bot bins]; try discriminate; repeat constructor; unfold digit_ok; lia.
Qed.
Theorem C135_kept_refuted : exists s c s', wobjects s /\ wargs c /\ nd_call s c = Ok (s', Caught OutOfRange) /\
  pr (coeff (T s 0%nat)) = (- (4 * 10 ^ 9 + 5 * 10 ^ 27), 1) /\ mono (see_term (T s 0%nat)) (nm "x") = Some 1 /\
  pr (coeff (T s' 0%nat)) = (- (4 * 10 ^ 9), 4 * 10 ^ 9 + 4 * 10 ^ 18 + 5 * 10 ^ 27 + 5 * 10 ^ 36) /\ mono (see_term (T s' 0%nat)) (nm "x") = Some 2.
Proof.
  exists C135_start, (MulAssignT 0 1). eexists. split; [exact C135_start_ok|]. split; [exact I|]. split; [vm_compute; reflexivity|]. vm_compute. auto.
Qed.

(** The same *= and then t0 *= y^3; a term t2 with coefficient 0/0: its product and its square in place throw,
    and so does adding it to itself in a Poly; -1/-2 x^1 is set, added to itself in a Poly and negated; adding
    what is left of t0 to itself throws and leaves the Poly; x - x is one term with coefficient 0. *)
Definition C135_prog : list pcall :=
  [MulAssignT 0 1; FactorNew 1 (nm "y") (i 3); MulAssignF 0 1; SetCoeff 2 (mkFrac (mkInt [0] false) (mkInt [0] false)); MulTT 3 2 2; MulAssignT 2 2;
   PolyT 0 2; AppendTerm 0 2; SetCoeff 3 (mkFrac (mkInt [1] true) (mkInt [2] true)); PolyT 1 3; AppendTerm 1 3; AddTT 2 0 0; SubFF 3 0 0; Negate 3].
Example C135_ex : match nd_calls C135_start C135_prog with
  | Ok (s, evs) =>
      evs = [Caught OutOfRange; Done; Done; Done; Caught DivideByZero; Caught DivideByZero; Done; Caught DivideByZero; Done; Done; Done; Caught OutOfRange; Done; Done] /\
      map (mono (see_term (T s 0%nat))) [nm "x"; nm "y"; nm "z"] = [Some 2; Some 3; None] /\
      map (mono (see_term (T s 2%nat))) [nm "x"; nm "y"] = [Some 2; None] /\
      pr (coeff (T s 2%nat)) = (0, 0) /\ pr (coeff (T s 3%nat)) = (-1, 2) /\
      map (fun t => pr (coeff t)) (P s 0%nat) = [(0, 0)] /\ map (fun t => pr (coeff t)) (P s 1%nat) = [(1, 1)] /\
      P s 2%nat = [] /\ map (fun t => pr (coeff t)) (P s 3%nat) = [(0, 1)]
  | _ => False
  end.
Proof. vm_compute. auto 20. Qed.
Example C135_ex_args : Forall wargs C135_prog.
Proof. repeat constructor; try discriminate; unfold digit_ok; lia. Qed.
(** With assertions the program does not get past the first call; undefined behaviour is the same. *)
Example C135_ex_assert : run_calls C135_start C135_prog = Abort.
Proof. vm_compute. reflexivity. Qed.
Example C135_ex_stops : nd_calls start [FactorNew 1 (nm "y") (i 3); MulAssignF 1 1; AddTT 0 0 1] = UB /\ adds (AddTT 0 0 1) = true.
Proof. vm_compute. auto. Qed.

Print Assumptions C135_programs.
Print Assumptions C135_call.
Print Assumptions C135_thrown.
Print Assumptions C135_zero.
Print Assumptions C135_same.
Print Assumptions C135_kept_refuted.
