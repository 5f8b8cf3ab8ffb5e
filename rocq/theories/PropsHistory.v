(** C25: whole histories of Int operations (programs of IntHistory.v). *)
From Coq Require Import Ascii ZifyBool.
From Verif Require Import Base IntModel IntSpec IntBasics IOModel IOSpec IOProofs PropsInt PropsIO IntHistory.

(** Canonical form is preserved by every program without `*=`; the only ways a
    run can end are: normally, divide_by_zero_error, invalid_argument (string
    constructor) or an assertion. *)
Theorem C25_canonical_histories : forall p st, (forall n, canonical (st n)) ->
  Forall no_mul_assign p -> Forall const_ok p ->
  match run st p with
  | Ok st' => forall n, canonical (st' n)
  | Throw e => e = DivideByZero \/ e = InvalidArgument
  | Abort => True
  | UB => False
  | OutOfFuel => False
  end.
Proof.
  intros p st H1 H2 H3. pose proof (run_acceptable p st H1 H2 H3) as H.
  destruct (run st p) as [st'|[]| | |]; cbn in H; auto; contradiction.
Qed.
(** The values are those of the same program over the integers, for exponents in
    [0,10^9), unless the run stops at an assertion. *)
Theorem C25_history_values : forall p st zs zs', denotes st zs -> zrun false zs p zs' ->
  run st p = Abort \/ exists st', run st p = Ok st' /\ denotes st' zs'.
Proof. intros p st zs zs' H1 H2. destruct (run_ok false p st zs zs' H1 H2) as [[_ H]|H]; auto. Qed.
(** It does not stop when every division stays in the domain of C13. *)
Theorem C25_history_values_strict : forall p st zs zs', denotes st zs -> zrun true zs p zs' ->
  exists st', run st p = Ok st' /\ denotes st' zs'.
Proof. intros p st zs zs' H1 H2. destruct (run_ok true p st zs zs' H1 H2) as [[H _]|H]; [discriminate|auto]. Qed.

(** x = 10^18-ish; y = x; y -= y; x = x*x; x %= y+7 ... with aliasing *)
Definition prog : list instr :=
  [IConst 0 123456789012345678; ICopy 1 0; IAssign Mul 0 0; IAssign Sub 1 1; IConst 2 (-7);
   IAssign Add 1 2; IBin Mod 3 0 1; IAssign Div 0 2; INegate 3; IAssign Pow 1 3].
Example C25_ex : exists st', run (fun _ => Int_default) prog = Ok st' /\
  map val (map st' [0; 1; 2; 3]%nat) = [Z.quot (123456789012345678 ^ 2) (-7); (-7) ^ 6; -7; 6].
Proof. eexists. split; [vm_compute; reflexivity|]. vm_compute. reflexivity. Qed.
Example C25_ex_hyp : Forall no_mul_assign [IConst 0 5; IAssign Sub 0 0] /\ Forall const_ok prog /\
  denotes (fun _ => Int_default) (fun _ => 0).
Proof.
  splits.
  - repeat constructor.
  - repeat (constructor; try exact I; try (unfold const_ok, INT64_MIN, INT64_MAX; lia)).
  - intros n. split; [apply Int_default_canonical|reflexivity].
Qed.
Print Assumptions C25_canonical_histories.
Print Assumptions C25_history_values.
Print Assumptions C25_history_values_strict.
