(** Property theorems: C113, programs of Frac calls with every exception caught. *)
From Coq Require Import QArith Qpower Ascii String.
From Verif Require Import Base IntModel IntSpec IntBasics IntPowExact IOModel IOSpec FracModel FracSpec FracProofs PropsFrac FracHistory PropsFracHistory ExtSpec ExtProofs CatchModel CatchSpec CatchProofs.
Local Open Scope Z_scope.

(** ** C113 *)
(** A program stops at a failed assertion, or shows exactly the events of the program over rationals,
    1/0, -1/0 and 0/0, and leaves every object with the value computed there. *)
Theorem C113_programs : forall p st xs xs' tr, (forall n, is_x (st n) (xs n)) -> Forall legal p -> xrun xs p xs' tr ->
  crun st p = Abort \/ exists st', crun st p = Ok (st', tr) /\ forall n, is_x (st' n) (xs' n).
Proof. exact crun_ok. Qed.
(** Every program has such a meaning. *)
Theorem C113_meaning : forall p xs, exists xs' tr, xrun xs p xs' tr.
Proof. exact xrun_total. Qed.
(** Whatever is called and caught, every object stays a reduced fraction, 1/0, -1/0 or 0/0, and nothing
    but the library's two exceptions and assertions is ever seen. *)
Theorem C113_closed : forall p st, (forall n, exists v, is_x (st n) v) -> Forall legal p ->
  match crun st p with
  | Ok (st', tr) => (forall n, exists v, is_x (st' n) v) /\ (forall e, In (Caught e) tr -> e = DivideByZero \/ e = InvalidArgument)
  | Abort => True
  | Throw _ | UB | OutOfFuel => False
  end.
Proof. exact crun_closed. Qed.
(** Once an object is 0/0, every operator in place on it throws and it stays 0/0, until it is given a
    fresh value or raised to the power 0. *)
Theorem C113_nan_stays : forall p st d st' tr, (forall n, exists v, is_x (st n) v) -> Forall legal p ->
  is_nan (st d) -> Forall (only_updates d) p -> crun st p = Ok (st', tr) ->
  is_nan (st' d) /\ Forall2 (fun s ev => in_place_on d s -> ev = Caught DivideByZero) p tr.
Proof. exact crun_nan_stays. Qed.
(** The four values exclude one another, and a rational is determined. *)
Theorem C113_one_value : forall f v w, is_x f v -> is_x f w -> x_eq v w.
Proof. exact is_x_unique. Qed.

(** a = 3/4; b = 0; a /= b; c = a; a += a; a -= 5; a == a; a < c; a >= c; e = a + c; e = 7 / c; c *= b; c ^= 0;
    a = 2; a ^= -3; d = Frac("1/0"); d /= b *)
Definition cprog : list stmt :=
  [Do (HMake 0 (i 3) (i 4)); Do (HDefault 1); Do (HAssign FDiv 0 1); Do (HCopy 2 0); Do (HAssign FAdd 0 0); Do (HIAssign FSub 0 (i 5));
   Cmp CEq 0 0; Cmp CLt 0 2; Cmp CGe 0 2; Do (HBin FAdd 4 0 2); Do (HIntL FDiv 4 (i 7) 2); Do (HAssign FMul 2 1); Do (HPowAssign 2 (i 0));
   Do (HOfInt 0 (i 2)); Do (HPowAssign 0 (i (-3))); Do (HString 3 (list_ascii_of_string "1/0")); Do (HAssign FDiv 3 1)].
Definition ctrace : list event :=
  [Done; Done; Done; Done; Caught DivideByZero; Caught DivideByZero; Said true; Said false; Said true; Caught DivideByZero; Done;
   Caught DivideByZero; Done; Done; Done; Caught InvalidArgument; Caught DivideByZero].
Example C113_ex : match crun zero_store cprog with
  | Ok (st, tr) => tr = ctrace /\ map st [0; 1; 2; 3; 4]%nat = [fr 8 1; fr 0 1; fr 1 1; fr 0 0; fr 0 1]
  | _ => False
  end.
Proof. vm_compute. auto. Qed.
Example C113_ex_legal : Forall legal cprog /\ forall n, is_x (zero_store n) (Some (Fin 0)).
Proof.
  split; [|intros n; apply zero_x].
  unfold cprog. repeat (apply Forall_cons; [cbn [legal]; try exact I; try exc|]); [..|apply Forall_nil].
  - split; exc.
  - split; [exc|apply small_exact_exponent; vm_compute; split; [discriminate|reflexivity]].
  - split; [exc|apply small_exact_exponent; vm_compute; split; [discriminate|reflexivity]].
Qed.
Example C113_ex_meaning : x_op FDiv (Some (Fin (3 # 4))) (Some (Fin 0)) = Some (Inf false) /\ x_op FAdd (Some (Inf false)) (Some (Inf false)) = None /\
  x_pow None 0 = Some (Fin 1) /\ x_pow (Some (Inf true)) 3 = Some (Inf true) /\ x_pow (Some (Inf true)) (-2) = Some (Fin 0) /\ x_cmp CGe None (Some (Inf false)).
Proof. splits; try reflexivity. intros []. Qed.
(** a = 0; a /= 0; a *= 1000000000; a -= 1: 0/0 is left with a numerator of two bins, and an assertion in the
    subtraction ends the program. *)
Example C113_ex_assertion :
  crun zero_store [Do (HIAssign FDiv 0 (i 0)); Do (HIAssign FMul 0 (i 1000000000)); Do (HIAssign FSub 0 (i 1))] = Abort /\
  match crun zero_store [Do (HIAssign FDiv 0 (i 0)); Do (HIAssign FMul 0 (i 1000000000))] with
  | Ok (st, tr) => st 0%nat = mkFrac (mkInt [0; 0] false) (mkInt [0] false) /\ tr = [Caught DivideByZero; Caught DivideByZero]
  | _ => False
  end.
Proof. vm_compute. auto. Qed.
(** The hypotheses of C113_nan_stays are met after the first statement of this program. *)
Example C113_ex_nan : is_nan (fr 0 0) /\ Forall (only_updates 0) [Do (HAssign FAdd 0 0); Do (HPowAssign 0 (i 2)); Do (HCopy 1 0); Cmp CEq 0 1] /\
  match crun (fun _ => fr 0 0) [Do (HAssign FAdd 0 0); Do (HPowAssign 0 (i 2)); Do (HCopy 1 0); Cmp CEq 0 1] with
  | Ok (st, tr) => st 0%nat = fr 0 0 /\ tr = [Caught DivideByZero; Caught DivideByZero; Done; Said true]
  | _ => False
  end.
Proof.
  splits.
  - unfold is_nan. assert (C : canonical (i 0)) by exc. splits; auto.
  - repeat (apply Forall_cons; [cbn [only_updates]; try exact I; try (intros _; vm_compute; discriminate); try discriminate|]); apply Forall_nil.
  - vm_compute. auto.
Qed.
Print Assumptions C113_programs.
Print Assumptions C113_meaning.
Print Assumptions C113_closed.
Print Assumptions C113_nan_stays.
Print Assumptions C113_one_value.
