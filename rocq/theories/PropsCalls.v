(** C104: every Int a client can hold, whatever it did to get there. *)
From Coq Require Import Ascii String ZifyBool.
From Verif Require Import Base IntModel IntSpec IntBasics IOModel IOSpec IOProofs PropsInt PropsIO IntHistory IntCalls.

(** One call of any public member or operator that makes or changes an Int. *)
Theorem C104_call : forall st c, (forall n, wf (st n)) -> arguments_ok c ->
  match perform st c with
  | Ok st' => (forall n, wf (st' n)) /\ zstep (fun n => val (st n)) c (fun n => val (st' n))
  | Throw DivideByZero => divides_by_zero (fun n => val (st n)) c
  | Throw InvalidArgument => exists d t, c = Parse d t /\ forall z, ~ int_text t z
  | Throw _ => False
  | Abort => may_assert c
  | UB | OutOfFuel => False
  end.
Proof. exact call_well_behaved. Qed.
(** A whole program of such calls. *)
Theorem C104_program : forall p st, (forall n, wf (st n)) -> Forall arguments_ok p ->
  match perform_all st p with
  | Ok st' => (forall n, wf (st' n)) /\ zsteps (fun n => val (st n)) p (fun n => val (st' n))
  | Throw DivideByZero => reaches (fun n => val (st n)) p divides_by_zero
  | Throw InvalidArgument =>
      reaches (fun n => val (st n)) p (fun _ c => exists d t, c = Parse d t /\ forall z, ~ int_text t z)
  | Throw _ => False
  | Abort => reaches (fun n => val (st n)) p (fun _ c => may_assert c)
  | UB | OutOfFuel => False
  end.
Proof. exact calls_well_behaved. Qed.
(** Division by zero is always reported, in any representation of zero. *)
Theorem C104_zero : forall st c, (forall n, wf (st n)) -> divides_by_zero (fun n => val (st n)) c ->
  perform st c = Throw DivideByZero.
Proof. exact zero_reported. Qed.
(** Raising to a power depends on the base's value alone: the power taken is the one
    of C88, whatever the representation of the base. *)
Theorem C104_pow_base : forall x y, wf x -> canonical y -> 0 <= val y ->
  (exists e r, power_taken 0 (val y) e /\ op_pow x y = Ok r /\ wf r /\ val r = val x ^ e) \/
  (power_stops 0 (val y) /\ op_pow x y = Abort).
Proof. exact pow_any_base. Qed.
(** Why set_value's argument is restricted: a bin of 10^9 or more, which set_value
    stores (C23), makes comparison disagree with the value. *)
Example C104_ex_set_value : exists st c r, (forall n, wf (st n)) /\ perform st c = Ok r /\ ~ wf (r 0%nat) /\
  val (r 0%nat) = 10 ^ 9 /\ cmp (r 0%nat) (mkInt [0; 1] false) = Ok (-1).
Proof.
  exists (fun _ => Int_default), (Set_ 0 (10 ^ 9)), (upd (fun _ => Int_default) 0 (mkInt [10 ^ 9] false)). splits.
  - intros n. apply canonical_wf, Int_default_canonical.
  - reflexivity.
  - intros [_ D]. inversion D as [|? ? H]; subst. destruct H. lia.
  - reflexivity.
  - vm_compute. reflexivity.
Qed.

(** Negative and many-binned zeroes made by `*=` and by the shifting constructor, then
    used by the operators; also a power of ten removed, a parsed and an extracted
    number. *)
Definition calls : list call :=
  [Make 0 (-5) 2; Make 1 0 0; Assign Mul 1 0; Binary Add 2 1 0; Assign Mul 1 1; Assign Add 1 1; Shift 3 2 1; Scale 3 (-27);
   Parse 4 (str "-42"%string); Extract 5 (istream_of (str "17/"%string)); Binary Mod 6 4 5; Assign Pow 5 6; Neg 7 5; Set_ 4 3;
   Binary Div 7 7 4; Negate 0].
Example C104_ex : exists st, perform_all (fun _ => Int_default) calls = Ok st /\
  map val (map st [0; 1; 2; 3; 4; 5; 6; 7]%nat) =
  [5 * 10 ^ 18; 0; -5 * 10 ^ 18; -5; 3; 17 ^ 9; 9; Z.quot (- 17 ^ 9) 3].
Proof. eexists. split; [vm_compute; reflexivity|vm_compute; reflexivity]. Qed.
Example C104_ex_zero_bins :
  mul_assign (mkInt [0] false) (Some (mkInt [7; 1; 3] true)) = Ok (mkInt [0; 0; 0] true) /\
  op_mul (mkInt [0; 0; 0] true) (mkInt [2] false) = Ok (mkInt [0] false) /\
  op_add (mkInt [0; 0; 0] true) (mkInt [2] false) = Abort /\
  op_mod (mkInt [5] false) (mkInt [0; 0; 0] true) = Throw DivideByZero /\
  op_pow (mkInt [2; 0; 0] true) (mkInt [3] false) = Ok (mkInt [8; 0; 0] true).
Proof. vm_compute. repeat split. Qed.
Example C104_ex_arguments : Forall arguments_ok calls.
Proof. unfold calls. repeat (constructor; [cbn; unfold INT64_MIN, INT64_MAX, INT32_MIN, INT32_MAX; lia|]). constructor. Qed.
Print Assumptions C104_call.
Print Assumptions C104_program.
Print Assumptions C104_zero.
Print Assumptions C104_pow_base.
