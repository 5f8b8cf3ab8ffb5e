(** C138: Vec<Frac> and Mat<Frac> with and without assertions. *)
From Verif Require Import Base IntModel IntSpec FracModel ElemModel ElemInst VecModel MatModel LinSpec LinCalls LinFracModel LinFracAgreeProofs.
Local Open Scope Z_scope.

(** Every Frac that an object holds has well-formed parts; it need not be reduced, and may be 1/0 or 0/0. *)
Definition well_formed_frac (f : Frac) : Prop := wf (top f) /\ wf (bot f).
Definition well_formed (st : objects Frac) : Prop :=
  (forall n, well_formed_frac (sc st n)) /\ (forall n, Forall well_formed_frac (ve st n)) /\
  (forall n, Forall (fun o => match o with Some x => well_formed_frac x | None => True end) (data (ma st n))).

(** One call: unless it fails an assertion, the build without assertions returns or throws the same
    and leaves the same objects, whose Fracs are again well formed. *)
Theorem C138_call : forall st c, well_formed st -> of_frac c -> snd (frac_perform st c) <> Abort ->
  frac_perform_nd st c = frac_perform st c /\ well_formed (fst (frac_perform st c)).
Proof. exact frac_tracks. Qed.
Print Assumptions C138_call.
(** Programs, every exception caught *)
Theorem C138_programs : forall st p, well_formed st -> Forall of_frac p -> frac_execute st p <> Abort -> frac_execute_nd st p = frac_execute st p.
Proof. exact (fun st p => frac_same p st). Qed.
Print Assumptions C138_programs.
(** The two builds part no earlier than at the first assertion that fails. *)
Theorem C138_until : forall st p q s l, well_formed st -> Forall of_frac p -> frac_execute st p = Ok (s, l) ->
  frac_execute_nd st (p ++ q) = ' (s', l') <- frac_execute_nd s q ;; Ok (s', l ++ l').
Proof. exact frac_until. Qed.
Print Assumptions C138_until.

(** The model of a call here ends as that of LinCalls.v, and does the same when it returns: only what
    is left by an exception within an element differs (C117 says what the calls of LinCalls.v compute). *)
Theorem C138_usual : forall st c, snd (frac_perform st c) = snd (perform Frac_ops st c) /\ (snd (frac_perform st c) = Ok tt -> frac_perform st c = perform Frac_ops st c).
Proof. exact frac_usual. Qed.
Print Assumptions C138_usual.

Definition f0 : Frac := mkFrac (int_const 0) (int_const 1).
Definition zeros : objects Frac := mkObjects (fun _ => f0) (fun _ => [f0; f0]) (fun _ => mkMat 0 0 []) (fun _ => false).
Lemma f0_wf : well_formed_frac f0.
Proof. split; (split; [discriminate|repeat constructor; discriminate]). Qed.
Example C138_zeros : well_formed zeros.
Proof. split; [|split]; intros n; cbn; auto using f0_wf. Qed.
(** The square of [2/3 3; 2/3 2/3] has trace 44/9. 2 / 0 throws, but [2/3, 2/3] /= 0 gives [1/0, 1/0];
    adding that to itself throws after it has made the first component 0/0. *)
Definition mixed : list lcall :=
  [Lit 0 2; Lit 1 3; SDiv 2 0 1; MNew 0 2 2 2; MSet 0 0 1 1; MProdA 0 0; MTrace 3 0; Lit 4 0; VFill 0 2; SDiv 5 0 4; VDivA 0 4; VAssign Plus 0 0].
Definition parts (f : Frac) : Z * Z := (val (top f), val (bot f)).
Definition seen (r : res (objects Frac * list (option exn))) : option (list (Z * Z) * list (Z * Z) * list (option exn)) :=
  match r with Ok (st, l) => Some (map parts [sc st 3], map parts (ve st 0), skipn 6 l) | _ => None end.
Example C138_mixed : seen (frac_execute zeros mixed) = seen (frac_execute_nd zeros mixed) /\
  seen (frac_execute zeros mixed) = Some ([(44, 9)], [(0, 0); (1, 0)], [None; None; None; Some DivideByZero; None; Some DivideByZero]).
Proof. split; vm_compute; reflexivity. Qed.
Example C138_mixed_calls : Forall of_frac mixed.
Proof. repeat constructor; discriminate. Qed.
(** Where they part: 3 / (10^18 + 5) fails an assertion; without it the call throws out_of_range. *)
Definition parting : list lcall := [Lit 0 1000000000; SMul 1 0 0; Lit 2 5; SAddSub Plus 3 1 2; Lit 4 3; SDiv 5 4 3].
Example C138_parting : frac_execute zeros parting = Abort /\
  match frac_execute_nd zeros parting with Ok (st, l) => Some (parts (sc st 3), l) | _ => None end =
    Some ((10 ^ 18 + 5, 1), [None; None; None; None; None; Some OutOfRange]).
Proof. split; vm_compute; reflexivity. Qed.
