(** Histories of Int operations: programs over any number of Int variables with
    any aliasing, run by the model, against the same programs over integers. *)
From Coq Require Import Ascii ZifyBool.
From Verif Require Import Base IntModel IntSpec IntBasics IntAddSub IntMul IntDiv IntMod IntPowDefined IntPowExact
  IOModel IOSpec IOProofs PropsInt.

(** A statement of the client program; variables are numbered. *)
Inductive instr :=
| IConst (d : nat) (k : Z)             (* d = Int(k) *)
| IString (d : nat) (s : chars)        (* d = Int(s) *)
| ICopy (d a : nat)                    (* d = a *)
| INeg (d a : nat)                     (* d = -a *)
| INegate (d : nat)                    (* d.negate() *)
| IBin (o : aop) (d a b : nat)         (* d = a o b *)
| IAssign (o : aop) (d b : nat).       (* d o= b; the same object when d = b *)

Definition upd {A} (st : nat -> A) (d : nat) (v : A) : nat -> A :=
  fun n => if Nat.eqb n d then v else st n.

(** Execution by the model (each case calls the modelled library function). *)
Definition exec (st : nat -> Int) (i : instr) : res (nat -> Int) :=
  match i with
  | IConst d k => r <- Int_of_int64 k 0 ;; Ok (upd st d r)
  | IString d s => r <- Int_of_string s ;; Ok (upd st d r)
  | ICopy d a => Ok (upd st d (st a))
  | INeg d a => r <- op_neg (st a) ;; Ok (upd st d r)
  | INegate d => r <- negate (st d) ;; Ok (upd st d r)
  | IBin o d a b => r <- binary o (st a) (st b) ;; Ok (upd st d r)
  | IAssign o d b =>
      r <- assign o (st d) (if Nat.eqb d b then None else Some (st b)) ;; Ok (upd st d r)
  end.
Fixpoint run (st : nat -> Int) (p : list instr) : res (nat -> Int) :=
  match p with
  | [] => Ok st
  | i :: p' => st' <- exec st i ;; run st' p'
  end.

(** The same program over mathematical integers. [strict] asks in addition that
    divisions stay in the domain in which the library's division returns. *)
Inductive zop (strict : bool) : aop -> Z -> Z -> Z -> Prop :=
| z_add a b : zop strict Add a b (a + b)
| z_sub a b : zop strict Sub a b (a - b)
| z_mul a b : zop strict Mul a b (a * b)
| z_div a b : b <> 0 -> (strict = true -> div_safe (Z.abs a) (Z.abs b)) -> zop strict Div a b (Z.quot a b)
| z_mod a b : b <> 0 -> (strict = true -> div_safe (Z.abs a) (Z.abs b)) -> zop strict Mod a b (a mod b)
| z_pow a b : 0 <= b -> exact_exponent b -> zop strict Pow a b (a ^ b).
Inductive zexec (strict : bool) (st : nat -> Z) : instr -> (nat -> Z) -> Prop :=
| ze_const d k : INT64_MIN < k <= INT64_MAX -> zexec strict st (IConst d k) (upd st d k)
| ze_string d s z : int_text s z -> zexec strict st (IString d s) (upd st d z)
| ze_copy d a : zexec strict st (ICopy d a) (upd st d (st a))
| ze_neg d a : zexec strict st (INeg d a) (upd st d (- st a))
| ze_negate d : zexec strict st (INegate d) (upd st d (- st d))
| ze_bin o d a b r : zop strict o (st a) (st b) r -> zexec strict st (IBin o d a b) (upd st d r)
| ze_assign o d b r : zop strict o (st d) (st b) r ->
    (o = Mul -> r <> 0 \/ (0 <= st d /\ 0 <= st b < 10 ^ 9)) -> zexec strict st (IAssign o d b) (upd st d r).
Inductive zrun (strict : bool) : (nat -> Z) -> list instr -> (nat -> Z) -> Prop :=
| zr_nil st : zrun strict st [] st
| zr_cons st i st' p st'' : zexec strict st i st' -> zrun strict st' p st'' -> zrun strict st (i :: p) st''.

Definition denotes (st : nat -> Int) (zs : nat -> Z) : Prop := forall n, canonical (st n) /\ val (st n) = zs n.

Lemma denotes_upd st zs d x z : denotes st zs -> canonical x -> val x = z -> denotes (upd st d x) (upd zs d z).
Proof. intros H Hx Hv n. unfold upd. destruct (Nat.eqb n d); auto. Qed.

Lemma binary_ok strict o x y r : canonical x -> canonical y -> zop strict o (val x) (val y) r ->
  (strict = false /\ binary o x y = Abort) \/ exists v, binary o x y = Ok v /\ canonical v /\ val v = r.
Proof.
  intros Hx Hy Hz. inversion Hz; subst; cbn [binary].
  - right. destruct (op_add_ok x y) as (v & ? & ? & ?); eauto.
  - right. destruct (op_sub_ok x y) as (v & ? & ? & ?); eauto.
  - right. destruct (op_mul_ok x y) as (v & ? & ? & ?); eauto.
  - destruct (op_div_cases x y Hx Hy) as [[E _]|[(_ & Hn & E)|(_ & _ & v & E & Hc & Hv)]]; [congruence| |eauto].
    destruct strict; [exfalso; auto|auto].
  - destruct (op_mod_cases x y Hx Hy) as [[E _]|[(_ & Hn & E)|(_ & _ & v & E & Hc & Hv)]]; [congruence| |eauto].
    destruct strict; [exfalso; auto|auto].
  - right. apply op_pow_right; auto.
Qed.
Lemma assign_ok strict o x other r : canonical x -> (forall y, other = Some y -> canonical y) ->
  zop strict o (val x) (val (rd x other)) r ->
  (o = Mul -> r <> 0 \/ (0 <= val x /\ 0 <= val (rd x other) < 10 ^ 9)) ->
  (strict = false /\ assign o x other = Abort) \/ exists v, assign o x other = Ok v /\ canonical v /\ val v = r.
Proof.
  intros Hx Hy Hz Hm.
  assert (Hr : canonical (rd x other)) by (destruct other; cbn; auto).
  destruct o; cbn [assign].
  - inversion Hz; subst. right. destruct (addsub_assign_ok false x other) as (v & ? & ? & ?); auto. eauto.
  - inversion Hz; subst. right. destruct (addsub_assign_ok true x other) as (v & ? & ? & ?); auto. eauto.
  - inversion Hz; subst. right. destruct (C26_mul_assign_partial x other) as (v & ? & ? & ? & Hc); auto.
    exists v. splits; auto. apply Hc. auto.
  - change (div_assign x other) with (binary Div x (rd x other)). apply binary_ok; auto.
  - change (mod_assign x other) with (binary Mod x (rd x other)). apply binary_ok; auto.
  - change (pow_assign x other) with (binary Pow x (rd x other)). apply binary_ok; auto.
Qed.
Lemma exec_ok strict st zs i zs' : denotes st zs -> zexec strict zs i zs' ->
  (strict = false /\ exec st i = Abort) \/ exists st', exec st i = Ok st' /\ denotes st' zs'.
Proof.
  intros Hd Hz. destruct Hz as [d k Hk|d s z Hs|d a|d a|d|o d a b r Hr|o d b r Hr Hm]; cbn [exec].
  - destruct (C01_from_int64 k Hk) as (x & -> & Hc & Hv). right. eexists. split; [reflexivity|]. apply denotes_upd; auto.
  - destruct (Int_of_string_ok s z Hs) as (x & -> & Hc & Hv). right. eexists. split; [reflexivity|]. apply denotes_upd; auto.
  - right. eexists. split; [reflexivity|]. apply denotes_upd; auto; apply Hd.
  - destruct (Hd a) as [Hca Hva]. destruct (op_neg_ok (st a)) as (x & -> & Hv & _ & _ & _ & _ & Hc); auto.
    right. eexists. split; [reflexivity|]. apply denotes_upd; auto. congruence.
  - destruct (Hd d) as [Hca Hva]. destruct (negate_ok (st d)) as (x & -> & Hv & _ & _ & _ & _ & Hc); auto.
    right. eexists. split; [reflexivity|]. apply denotes_upd; auto. congruence.
  - destruct (Hd a) as [Hca Hva]. destruct (Hd b) as [Hcb Hvb]. rewrite <- Hva, <- Hvb in Hr.
    destruct (binary_ok strict o _ _ r Hca Hcb Hr) as [[-> E]|(x & E & Hc & Hv)]; rewrite E; auto.
    right. eexists. split; [reflexivity|]. apply denotes_upd; auto.
  - destruct (Hd d) as [Hcd Hvd]. destruct (Hd b) as [Hcb Hvb].
    set (ot := if Nat.eqb d b then None else Some (st b)).
    assert (Hot : rd (st d) ot = st b).
    { unfold ot. destruct (Nat.eqb d b) eqn:E; cbn; auto. apply Nat.eqb_eq in E as ->. auto. }
    assert (Hoc : forall y, ot = Some y -> canonical y).
    { intros y. unfold ot. destruct (Nat.eqb d b); [discriminate|]. intros [= <-]; auto. }
    rewrite <- Hvd, <- Hvb, <- Hot in *.
    destruct (assign_ok strict o (st d) ot r) as [[-> E]|(x & E & Hc & Hv)]; auto; rewrite E; auto.
    right. eexists. split; [reflexivity|]. apply denotes_upd; auto.
Qed.
Lemma run_ok strict p : forall st zs zs', denotes st zs -> zrun strict zs p zs' ->
  (strict = false /\ run st p = Abort) \/ exists st', run st p = Ok st' /\ denotes st' zs'.
Proof.
  induction p as [|i p IH]; intros st zs zs' Hd Hz; inversion Hz; subst.
  - right. exists st. auto.
  - cbn [run]. destruct (exec_ok strict st zs i st' Hd H2) as [[-> E]|(st1 & E & Hd1)]; rewrite E; auto.
    rewrite bind_ok. eapply IH; eauto.
Qed.

(** Without `*=`, canonical form survives whatever the program does. *)
Definition no_mul_assign (i : instr) : Prop := match i with IAssign Mul _ _ => False | _ => True end.
Definition const_ok (i : instr) : Prop := match i with IConst _ k => INT64_MIN < k <= INT64_MAX | _ => True end.
Definition acceptable {A} (P : A -> Prop) (m : res A) : Prop :=
  match m with Ok a => P a | Throw DivideByZero => True | Throw InvalidArgument => True | Abort => True | _ => False end.
Lemma acceptable_bind {A C} (P : A -> Prop) (Q : C -> Prop) m f :
  acceptable P m -> (forall a, P a -> acceptable Q (f a)) -> acceptable Q (bind m f).
Proof. destruct m as [a|[]| | |]; cbn; auto. Qed.
Lemma binary_acceptable o x y : canonical x -> canonical y -> acceptable canonical (binary o x y).
Proof.
  intros Hx Hy. destruct (C27_defined o x y Hx Hy) as ((H1 & H2) & _ & _ & H3 & H4).
  destruct (binary o x y) as [r|e| | |] eqn:E; cbn; auto.
  specialize (H3 e eq_refl). subst. auto.
Qed.
Lemma exec_acceptable st i : (forall n, canonical (st n)) -> no_mul_assign i -> const_ok i ->
  acceptable (fun st' => forall n, canonical (st' n)) (exec st i).
Proof.
  intros Hd Hm Hk.
  assert (HU : forall d x, canonical x -> acceptable (fun st' => forall n, canonical (st' n)) (Ok (upd st d x))).
  { intros d x Hx n. unfold upd. destruct (Nat.eqb n d); auto. }
  destruct i as [d k|d s|d a|d a|d|o d a b|o d b]; cbn [exec].
  - destruct (C01_from_int64 k Hk) as (x & -> & Hc & Hv). apply HU; auto.
  - destruct (Int_of_string s) as [x|e| | |] eqn:E; destruct (int_prefix_dec s) as [Hn|(p & t & z & -> & Hp & Ht)].
    all: try (rewrite Int_of_string_bad in E; [injection E as <- || discriminate E; cbn; auto|
               intros z Hz; apply (Hn s [] z); auto; rewrite app_nil_r; auto]).
    all: (destruct t as [|c t]; [rewrite app_nil_r in E; destruct (Int_of_string_ok p z Hp) as (x' & E' & Hc & Hv);
            rewrite E' in E; injection E as <- || discriminate E; apply HU; auto
          |rewrite Int_of_string_bad in E; [injection E as <- || discriminate E; cbn; auto|
             intros z' Hz; apply (int_text_app p (c :: t) z z'); auto; discriminate]]).
  - apply HU; auto.
  - destruct (op_neg_ok (st a)) as (x & -> & Hv & _ & _ & _ & _ & Hc); auto. apply HU; auto.
  - destruct (negate_ok (st d)) as (x & -> & Hv & _ & _ & _ & _ & Hc); auto. apply HU; auto.
  - apply (acceptable_bind canonical); [apply binary_acceptable; auto|]. intros r Hr. apply HU; auto.
  - apply (acceptable_bind canonical); [|intros r Hr; apply HU; auto].
    set (ot := if Nat.eqb d b then None else Some (st b)).
    assert (Hoc : forall y, ot = Some y -> canonical y).
    { intros y. unfold ot. destruct (Nat.eqb d b); [discriminate|]. intros [= <-]; auto. }
    assert (Hr : canonical (rd (st d) ot)) by (destruct ot; cbn; auto).
    destruct o; cbn [assign].
    + destruct (addsub_assign_ok false (st d) ot) as (v & E & ? & ?); auto. unfold add_assign. rewrite E. auto.
    + destruct (addsub_assign_ok true (st d) ot) as (v & E & ? & ?); auto. unfold sub_assign. rewrite E. auto.
    + destruct Hm.
    + apply (binary_acceptable Div); auto.
    + apply (binary_acceptable Mod); auto.
    + apply (binary_acceptable Pow); auto.
Qed.
Lemma run_acceptable p : forall st, (forall n, canonical (st n)) -> Forall no_mul_assign p -> Forall const_ok p ->
  acceptable (fun st' => forall n, canonical (st' n)) (run st p).
Proof.
  induction p as [|i p IH]; intros st Hd Hm Hk; cbn [run]; [exact Hd|].
  inversion Hm; inversion Hk; subst.
  apply (acceptable_bind (fun st' => forall n, canonical (st' n))); [apply exec_acceptable; auto|].
  intros st' Hst'. apply IH; auto.
Qed.
