(** C140: programs of calls of Factor, Term and Poly with and without assertions, every exception caught. *)
From Coq Require Import ZArith Lia String Ascii List.
From Verif Require Import Base IntModel IntSpec IntBasics IOModel FracModel ElemModel PolyModel PolyCalls CatchModel PolyReleaseModel PolyReleaseCallsModel PolyCatchModel PolyAgreeProofs PropsFrac PropsPoly.
Import ListNotations.
Local Open Scope list_scope.
Local Open Scope Z_scope.

(** Powers are well-formed Ints, coefficients pairs of such: leading zero bins, fractions that are not
    reduced, 1/0 and 0/0 included; the keys of a map may be anything. *)
Definition good_factor (f : Factor) : Prop := wf (power f).
Definition good_frac (c : Frac) : Prop := wf (top c) /\ wf (bot c).
Definition good_term (t : Term) : Prop := good_frac (coeff t) /\ Forall (fun e => good_factor (snd e)) (factors t).
Definition good (s : objects) : Prop := (forall a, good_factor (F s a)) /\ (forall a, good_term (T s a)) /\ (forall a, Forall good_term (P s a)).
Definition good_args (c : pcall) : Prop :=
  match c with FactorNew _ _ x | SetPower _ x => wf x | TermCoeff _ c _ | TermVector _ c _ | SetCoeff _ c => good_frac c | _ => True end.

(** One call: with assertions it fails one, or it does what it does without them: it returns or throws
    the same and leaves the same objects, or has undefined behaviour in both. *)
Theorem C140_call : forall s c, good s -> good_args c -> catch_call s c = Abort \/ nd_call s c = catch_call s c.
Proof. exact poly_call. Qed.
Print Assumptions C140_call.
Theorem C140_programs : forall l s, good s -> Forall good_args l -> catch_calls s l = Abort \/ catch_calls s l = nd_calls s l.
Proof. exact poly_same. Qed.
Print Assumptions C140_programs.
(** The two builds part no earlier than at the first assertion that fails. *)
Theorem C140_until : forall l q s s' evs, good s -> Forall good_args l -> catch_calls s l = Ok (s', evs) -> nd_calls s (l ++ q) = b <- nd_calls s' q ;; Ok (fst b, evs ++ snd b).
Proof. exact poly_until. Qed.
Print Assumptions C140_until.
(** A program that fails an assertion does so in one call, and reaches that call as it does without assertions. *)
Theorem C140_first : forall l s, good s -> Forall good_args l -> catch_calls s l = Abort ->
  exists l1 c l2 s1 evs, l = l1 ++ c :: l2 /\ catch_calls s l1 = Ok (s1, evs) /\ nd_calls s l1 = Ok (s1, evs) /\ catch_call s1 c = Abort.
Proof. exact poly_first. Qed.
Print Assumptions C140_first.
(** A call that returns does what the model without exception handling does (PolyCalls.v, C109). *)
Theorem C140_usual : forall s c s', run_call s c = Ok s' <-> catch_call s c = Ok (s', Done).
Proof. exact poly_usual. Qed.
Print Assumptions C140_usual.

(** Term 0 becomes 0/0 x: its product with itself throws; in place it throws too, but the monomial is x^2 by
    then; adding it to itself in a Poly throws and leaves 0/0 there; -1/-2 x is added to itself in a Poly,
    negated and multiplied by y^3. *)
Definition C140_start : objects := mkObjects (fun _ => fx 1) (fun _ => mkTerm (fr 1 1) [(nm "x", fx 1)]) (fun _ => []).
Definition C140_prog : list pcall :=
  [SetCoeff 0 (mkFrac (mkInt [0] false) (mkInt [0] false)); MulTT 1 0 0; MulAssignT 0 0; PolyT 0 0; AppendTerm 0 0;
   SetCoeff 3 (mkFrac (mkInt [1] true) (mkInt [2] true)); PolyT 1 3; AppendTerm 1 3; Negate 3; FactorNew 1 (nm "y") (i 3); MulAssignF 3 1].
Definition C140_seen (r : res (objects * list event)) :=
  match r with
  | Ok (s, l) => Some (map (fun t => (val (top (coeff t)), val (bot (coeff t)), map (fun e => val (power (snd e))) (factors t))) ([T s 0%nat; T s 1%nat; T s 3%nat] ++ P s 0%nat ++ P s 1%nat), l)
  | _ => None
  end.
Example C140_ex : C140_seen (catch_calls C140_start C140_prog) = C140_seen (nd_calls C140_start C140_prog) /\
  C140_seen (catch_calls C140_start C140_prog) =
    Some ([(0, 0, [2]); (1, 1, [1]); (-1, 2, [1; 3]); (0, 0, [2]); (1, 1, [1])],
          [Done; Caught DivideByZero; Caught DivideByZero; Done; Caught DivideByZero; Done; Done; Done; Done; Done; Done]).
Proof. split; vm_compute; reflexivity. Qed.
Example C140_ex_good : good C140_start /\ Forall good_args C140_prog.
Proof.
  assert (W : forall k b, 0 <= k < 10 -> wf (mkInt [k] b)) by (intros k b H; split; cbn; [discriminate|repeat constructor; unfold digit_ok; lia]).
  assert (X : wf (power (fx 1))) by (change (wf (mkInt [1] false)); apply W; lia).
  split.
  - split; [intros a; exact X|]. split; [|intros a; constructor]. intros a. split; [split; [change (wf (mkInt [1] false))|change (wf (mkInt [1] false))]; apply W; lia|]. apply Forall_cons; [exact X|constructor].
  - unfold C140_prog. repeat apply Forall_cons; try exact I; cbn [good_args]; try (split; apply W; lia); try (apply W; lia); try (change (wf (mkInt [3] false)); apply W; lia). constructor.
Qed.
(** Where the builds part: 4/3 x squares in place without failing an assertion, but *= 1/(10^18 + 5) x
    fails one; without it the call throws out_of_range. *)
Definition C140_parting : objects := mkObjects (fun _ => fx 1) (fun a => mkTerm (if Nat.eqb a 0 then fr 4 3 else fr 1 (10 ^ 18 + 5)) [(nm "x", fx 1)]) (fun _ => []).
Example C140_ex_parting :
  C140_seen (catch_calls C140_parting [MulAssignT 0 0]) <> None /\ catch_call C140_parting (MulAssignT 0 1) = Abort /\
  match nd_call C140_parting (MulAssignT 0 1) with Ok (_, ev) => ev = Caught OutOfRange | _ => False end.
Proof. split; [vm_compute; discriminate|]. split; vm_compute; reflexivity. Qed.
(** The same after two calls that go the same way in both builds. *)
Example C140_ex_first : catch_calls C140_parting [TermCopy 2 0; MulAssignT 2 2; MulAssignT 0 1; Negate 0] = Abort /\
  C140_seen (catch_calls C140_parting [TermCopy 2 0; MulAssignT 2 2]) = C140_seen (nd_calls C140_parting [TermCopy 2 0; MulAssignT 2 2]) /\
  match nd_calls C140_parting [TermCopy 2 0; MulAssignT 2 2; MulAssignT 0 1; Negate 0] with Ok (_, l) => l = [Done; Done; Caught OutOfRange; Caught OutOfRange] | _ => False end.
Proof. split; [vm_compute; reflexivity|]. split; vm_compute; reflexivity. Qed.
