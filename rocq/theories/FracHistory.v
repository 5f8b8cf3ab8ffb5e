(** Histories of Frac operations: programs over any number of Frac variables
    with any aliasing, run by the model, against the same programs over Q. *)
From Coq Require Import QArith Qpower Ascii ZifyBool.
From Verif Require Import Base IntModel IntSpec IntBasics IOModel IOSpec FracModel FracSpec FracProofs FracIO FracPow PropsFrac.
Local Open Scope Z_scope.

(** A statement of the client program; variables are numbered, Int operands are
    arbitrary Int objects. *)
Inductive finstr :=
| HDefault (d : nat)                   (* d = Frac() *)
| HOfInt (d : nat) (a : Int)           (* d = Frac(a) *)
| HMake (d : nat) (a b : Int)          (* d = Frac(a, b) *)
| HString (d : nat) (s : chars)        (* d = Frac(s) *)
| HCopy (d a : nat)                    (* d = a *)
| HRecip (d a : nat)                   (* d = a.reciprocal() *)
| HBin (o : fop) (d a b : nat)         (* d = a o b *)
| HIntL (o : fop) (d : nat) (a : Int) (b : nat) (* d = a o b, a an Int *)
| HIntR (o : fop) (d a : nat) (b : Int) (* d = a o b, b an Int *)
| HPow (d a : nat) (n : Int)           (* d = a ^ n *)
| HAssign (o : fop) (d b : nat)        (* d o= b; the same object when d = b *)
| HIAssign (o : fop) (d : nat) (b : Int) (* d o= b, b an Int *)
| HPowAssign (d : nat) (n : Int).      (* d ^= n *)

Definition IFbin (o : fop) : Int -> Frac -> res Frac :=
  match o with FAdd => IF_add | FSub => IF_sub | FMul => IF_mul | FDiv => IF_div end.

Definition fupd {A} (st : nat -> A) (d : nat) (v : A) : nat -> A :=
  fun n => if Nat.eqb n d then v else st n.

Definition fexec (st : nat -> Frac) (i : finstr) : res (nat -> Frac) :=
  match i with
  | HDefault d => r <- Frac_default ;; Ok (fupd st d r)
  | HOfInt d a => r <- Frac_of_Int a ;; Ok (fupd st d r)
  | HMake d a b => r <- Frac_make a b ;; Ok (fupd st d r)
  | HString d s => r <- Frac_of_string s ;; Ok (fupd st d r)
  | HCopy d a => Ok (fupd st d (st a))
  | HRecip d a => r <- reciprocal (st a) ;; Ok (fupd st d r)
  | HBin o d a b => r <- Fbin o (st a) (st b) ;; Ok (fupd st d r)
  | HIntL o d a b => r <- IFbin o a (st b) ;; Ok (fupd st d r)
  | HIntR o d a b => r <- FIbin o (st a) b ;; Ok (fupd st d r)
  | HPow d a n => r <- F_pow (st a) n ;; Ok (fupd st d r)
  | HAssign o d b => r <- result (Fasg o (st d) (if Nat.eqb d b then None else Some (st b))) ;; Ok (fupd st d r)
  | HIAssign o d b => r <- result (FIasg o (st d) b) ;; Ok (fupd st d r)
  | HPowAssign d n => r <- result (F_pow_assign (st d) n) ;; Ok (fupd st d r)
  end.
Fixpoint frun (st : nat -> Frac) (p : list finstr) : res (nat -> Frac) :=
  match p with
  | [] => Ok st
  | i :: p' => st' <- fexec st i ;; frun st' p'
  end.

(** The same program over Q. *)
Inductive qop : fop -> Q -> Q -> Q -> Prop :=
| q_add a b : qop FAdd a b (a + b)
| q_sub a b : qop FSub a b (a - b)
| q_mul a b : qop FMul a b (a * b)
| q_div a b : ~ (b == 0)%Q -> qop FDiv a b (a / b).
Inductive qexec (st : nat -> Q) : finstr -> (nat -> Q) -> Prop :=
| qe_default d : qexec st (HDefault d) (fupd st d 0%Q)
| qe_ofint d a : canonical a -> qexec st (HOfInt d a) (fupd st d (inject_Z (val a)))
| qe_make d a b : canonical a -> canonical b -> val b <> 0 -> qexec st (HMake d a b) (fupd st d (inject_Z (val a) / inject_Z (val b))%Q)
| qe_string d s n m : frac_string s n m -> m <> 0 -> qexec st (HString d s) (fupd st d (inject_Z n / inject_Z m)%Q)
| qe_copy d a : qexec st (HCopy d a) (fupd st d (st a))
| qe_recip d a : ~ (st a == 0)%Q -> qexec st (HRecip d a) (fupd st d (/ st a)%Q)
| qe_bin o d a b r : qop o (st a) (st b) r -> qexec st (HBin o d a b) (fupd st d r)
| qe_intl o d a b r : canonical a -> qop o (inject_Z (val a)) (st b) r -> qexec st (HIntL o d a b) (fupd st d r)
| qe_intr o d a b r : canonical b -> qop o (st a) (inject_Z (val b)) r -> qexec st (HIntR o d a b) (fupd st d r)
| qe_pow d a n : canonical n -> exact_exponent (Z.abs (val n)) -> ((st a == 0)%Q -> 0 <= val n) ->
    qexec st (HPow d a n) (fupd st d (st a ^ val n)%Q)
| qe_assign o d b r : qop o (st d) (st b) r -> qexec st (HAssign o d b) (fupd st d r)
| qe_iassign o d b r : canonical b -> qop o (st d) (inject_Z (val b)) r -> qexec st (HIAssign o d b) (fupd st d r)
| qe_powassign d n : canonical n -> 0 <= val n -> exact_exponent (val n) -> qexec st (HPowAssign d n) (fupd st d (st d ^ val n)%Q).
Inductive qrun : (nat -> Q) -> list finstr -> (nat -> Q) -> Prop :=
| qr_nil st : qrun st [] st
| qr_cons st i st' p st'' : qexec st i st' -> qrun st' p st'' -> qrun st (i :: p) st''.

Definition fdenotes (st : nat -> Frac) (qs : nat -> Q) : Prop := forall n, reduced (st n) /\ (Fval (st n) == qs n)%Q.

Lemma fdenotes_upd st qs d x q : fdenotes st qs -> reduced x -> (Fval x == q)%Q -> fdenotes (fupd st d x) (fupd qs d q).
Proof. intros H Hx Hv n. unfold fupd. destruct (Nat.eqb n d); auto. Qed.

(** m aborts or returns q in reduced form *)
Definition weak (m : res Frac) (q : Q) : Prop := m = Abort \/ exists r, m = Ok r /\ reduced r /\ (Fval r == q)%Q.
Lemma gives_weak m q S : gives m q S -> weak m q.
Proof. intros [[_ H]|[_ H]]; [right|left]; auto. Qed.
Lemma weak_eq m q q' : weak m q -> (q == q')%Q -> weak m q'.
Proof. intros [H|(r & E & R & V)] Q; [left; auto|right]. exists r. splits; auto. rewrite V. exact Q. Qed.
Lemma agrees_weak p m q : agrees p m -> weak m q -> weak (result p) q.
Proof.
  intros [(r & E & Ep)|[E Ep]] [W|(r' & E' & R & V)]; rewrite E in *; try discriminate.
  - injection E' as <-. right. exists r. rewrite Ep. auto.
  - left. unfold result. rewrite Ep. reflexivity.
Qed.
Lemma weak_exec st qs d m q : fdenotes st qs -> weak m q ->
  (r <- m ;; Ok (fupd st d r)) = Abort \/ exists st', (r <- m ;; Ok (fupd st d r)) = Ok st' /\ fdenotes st' (fupd qs d q).
Proof.
  intros D [->|(r & -> & R & V)]; [left; reflexivity|right]. eexists. split; [reflexivity|]. apply fdenotes_upd; auto.
Qed.

Lemma qop_compat o a b a' b' r : (a == a')%Q -> (b == b')%Q -> qop o a b r -> exists r', qop o a' b' r' /\ (r' == r)%Q.
Proof.
  intros Ea Eb H. destruct H as [a b|a b|a b|a b N]; eexists; (split; [constructor|]); try (rewrite Ea, Eb; reflexivity).
  rewrite <- Eb. exact N.
Qed.
Lemma Fbin_weak o f g r : reduced f -> reduced g -> qop o (Fval f) (Fval g) r -> weak (Fbin o f g) r.
Proof.
  intros Rf Rg H. destruct (C33_frac_frac f g Rf Rg) as (H1 & H2 & H3 & H4 & _).
  inversion H; subst; cbn [Fbin]; eapply gives_weak; eauto.
Qed.
Lemma IFbin_weak o a f r : canonical a -> reduced f -> qop o (inject_Z (val a)) (Fval f) r -> weak (IFbin o a f) r.
Proof.
  intros Ca Rf H. destruct (C33_int_frac a f Ca Rf) as (H1 & H2 & H3 & H4 & _).
  inversion H; subst; cbn [IFbin]; eapply gives_weak; eauto.
Qed.
Lemma FIbin_weak o f a r : reduced f -> canonical a -> qop o (Fval f) (inject_Z (val a)) r -> weak (FIbin o f a) r.
Proof.
  intros Rf Ca H. destruct (C33_frac_int f a Rf Ca) as (H1 & H2 & H3 & H4 & _).
  inversion H; subst; cbn [FIbin]; eapply gives_weak; eauto.
  apply H4. intros E. match goal with N : ~ (_ == _)%Q |- _ => apply N end. rewrite E. reflexivity.
Qed.
Lemma zero_frac : reduced (mkFrac (mkInt [0] false) (mkInt [1] false)).
Proof. exr. Qed.

Lemma fexec_ok st qs i qs' : fdenotes st qs -> qexec qs i qs' ->
  fexec st i = Abort \/ exists st', fexec st i = Ok st' /\ fdenotes st' qs'.
Proof.
  intros D H.
  destruct H as [d|d a Ca|d a b Ca Cb Nb|d s n m Hs Nm|d a|d a Na|o d a b r Hr|o d a b r Ca Hr|o d a b r Cb Hr|d a n Cn Hn Hz|o d b r Hr|o d b r Cb Hr|d n Cn Hn Hg]; cbn [fexec].
  - apply (weak_exec st qs d Frac_default 0); auto. right. eexists. splits; [reflexivity|apply zero_frac|reflexivity].
  - apply weak_exec; auto. right. apply C32_of_Int, Ca.
  - apply weak_exec; auto. destruct (C32_construct a b Ca Cb) as [[? _]|[(_ & _ & E)|(_ & _ & E)]]; [contradiction|left|right]; auto.
  - apply weak_exec; auto.
    destruct (Frac_of_string_makes s n m Hs Nm) as [[? _]|[(_ & _ & E)|(_ & _ & E)]]; [contradiction|left|right]; auto.
  - right. eexists. split; [reflexivity|]. apply fdenotes_upd; auto; apply D.
  - destruct (D a) as [Ra Va]. apply weak_exec; auto.
    destruct (C40_reciprocal (st a) Ra) as [[E _]|[_ G]]; [exfalso; apply Na; rewrite <- Va; exact E|].
    eapply weak_eq; [eapply gives_weak, G|]. rewrite Va. reflexivity.
  - destruct (D a) as [Ra Va]. destruct (D b) as [Rb Vb]. apply weak_exec; auto.
    destruct (qop_compat o _ _ (Fval (st a)) (Fval (st b)) r (Qeq_sym _ _ Va) (Qeq_sym _ _ Vb) Hr) as (r' & Hr' & E).
    eapply weak_eq; [apply Fbin_weak; eauto|exact E].
  - destruct (D b) as [Rb Vb]. apply weak_exec; auto.
    destruct (qop_compat o _ _ (inject_Z (val a)) (Fval (st b)) r (Qeq_refl _) (Qeq_sym _ _ Vb) Hr) as (r' & Hr' & E).
    eapply weak_eq; [apply IFbin_weak; eauto|exact E].
  - destruct (D a) as [Ra Va]. apply weak_exec; auto.
    destruct (qop_compat o _ _ (Fval (st a)) (inject_Z (val b)) r (Qeq_sym _ _ Va) (Qeq_refl _) Hr) as (r' & Hr' & E).
    eapply weak_eq; [apply FIbin_weak; eauto|exact E].
  - destruct (D a) as [Ra Va]. apply weak_exec; auto.
    destruct (C36_pow (st a) n Ra Cn Hn) as [(E & L & _)|[_ G]].
    + exfalso. rewrite Va in E. specialize (Hz E). lia.
    + eapply weak_eq; [eapply gives_weak, G|]. rewrite Va. reflexivity.
  - destruct (D d) as [Rd Vd]. destruct (D b) as [Rb Vb]. apply weak_exec; auto.
    set (ot := if Nat.eqb d b then None else Some (st b)).
    assert (Hot : rd (st d) ot = st b).
    { unfold ot. destruct (Nat.eqb d b) eqn:E; cbn; auto. apply Nat.eqb_eq in E as ->. auto. }
    assert (Hoc : forall y, ot = Some y -> reduced y).
    { intros y. unfold ot. destruct (Nat.eqb d b); [discriminate|]. intros [= <-]; auto. }
    destruct (qop_compat o _ _ (Fval (st d)) (Fval (st b)) r (Qeq_sym _ _ Vd) (Qeq_sym _ _ Vb) Hr) as (r' & Hr' & E).
    eapply agrees_weak; [apply C35_assign_partial; auto|].
    + rewrite Hot. intros ->. inversion Hr'; subst. assumption.
    + rewrite Hot. eapply weak_eq; [apply Fbin_weak; eauto|exact E].
  - destruct (D d) as [Rd Vd]. apply weak_exec; auto.
    destruct (qop_compat o _ _ (Fval (st d)) (inject_Z (val b)) r (Qeq_sym _ _ Vd) (Qeq_refl _) Hr) as (r' & Hr' & E).
    eapply agrees_weak; [apply C35_assign_int_partial; auto|].
    + intros ->. inversion Hr'; subst. intros Z0. match goal with N : ~ (_ == _)%Q |- _ => apply N end. rewrite Z0. reflexivity.
    + eapply weak_eq; [apply FIbin_weak; eauto|exact E].
  - destruct (D d) as [Rd Vd]. apply weak_exec; auto.
    eapply agrees_weak; [apply C36_pow_assign_partial; auto|].
    destruct (C36_pow (st d) n Rd Cn) as [(E & L & _)|[_ G]]; [rewrite Z.abs_eq; assumption|lia|].
    eapply weak_eq; [eapply gives_weak, G|]. rewrite Vd. reflexivity.
Qed.
Lemma frun_ok p : forall st qs qs', fdenotes st qs -> qrun qs p qs' ->
  frun st p = Abort \/ exists st', frun st p = Ok st' /\ fdenotes st' qs'.
Proof.
  induction p as [|i p IH]; intros st qs qs' D H; inversion H; subst.
  - right. exists st. auto.
  - cbn [frun]. destruct (fexec_ok st qs i st' D H3) as [E|(st1 & E & D1)]; rewrite E; [left; reflexivity|].
    rewrite bind_ok. eapply IH; eauto.
Qed.

(** A statement whose arguments are well-formed objects, and which is not a
    division in place. *)
Definition clean (i : finstr) : Prop :=
  match i with
  | HOfInt _ a | HIntL _ _ a _ | HIntR _ _ _ a | HPow _ _ a | HPowAssign _ a => canonical a
  | HMake _ a b => canonical a /\ canonical b
  | HAssign FDiv _ _ => False
  | HIAssign o _ a => o <> FDiv /\ canonical a
  | _ => True
  end.
Definition facceptable {A} (P : A -> Prop) (m : res A) : Prop :=
  match m with Ok a => P a | Throw DivideByZero => True | Throw InvalidArgument => True | Abort => True | _ => False end.
Lemma facc_bind {A C} (P : A -> Prop) (R : C -> Prop) m f :
  facceptable P m -> (forall a, P a -> facceptable R (f a)) -> facceptable R (bind m f).
Proof. destruct m as [a|[]| | |]; cbn; auto. Qed.
Lemma facc_gives m q S : gives m q S -> facceptable reduced m.
Proof. intros [[_ (r & -> & R & _)]|[_ ->]]; cbn; auto. Qed.
Lemma facc_makes m t b : makes m t b -> facceptable reduced m.
Proof. intros [[_ ->]|[(_ & _ & ->)|(_ & _ & r & -> & R & _)]]; cbn; auto. Qed.
Lemma facc_leaves p t b : leaves p t b -> facceptable reduced (result p).
Proof. intros [[_ (r & -> & R & _)]|[_ H]]; unfold result; [cbn; auto|rewrite H; cbn; auto]. Qed.
Lemma facc_agrees p m : agrees p m -> facceptable reduced m -> facceptable reduced (result p).
Proof. intros [(r & -> & ->)|[-> H]] F; unfold result; [cbn in *; auto|rewrite H; cbn; auto]. Qed.
Lemma facc_Fbin o f g : reduced f -> reduced g -> facceptable reduced (Fbin o f g).
Proof.
  intros Rf Rg. pose proof (reduced_parts f Rf). pose proof (reduced_parts g Rg).
  destruct o; cbn [Fbin]; eapply facc_makes; [apply F_add_makes|apply F_sub_makes|apply F_mul_makes|apply F_div_makes]; auto.
Qed.
Lemma facc_IFbin o a f : canonical a -> reduced f -> facceptable reduced (IFbin o a f).
Proof.
  intros Ca Rf. destruct (C33_int_frac a f Ca Rf) as (H1 & H2 & H3 & H4 & H5).
  destruct o; cbn [IFbin]; try (eapply facc_gives; eassumption).
  destruct (Z.eq_dec (val (top f)) 0) as [E|E].
  - rewrite H5 by (apply Fval_0; auto). exact I.
  - eapply facc_gives, H4. intros X. apply Fval_0 in X; auto.
Qed.
Lemma facc_FIbin o f a : reduced f -> canonical a -> facceptable reduced (FIbin o f a).
Proof.
  intros Rf Ca. destruct (C33_frac_int f a Rf Ca) as (H1 & H2 & H3 & H4 & H5).
  destruct o; cbn [FIbin]; try (eapply facc_gives; eassumption).
  destruct (Z.eq_dec (val a) 0) as [E|E].
  - rewrite H5 by auto. exact I.
  - eapply facc_gives, H4. auto.
Qed.
Lemma fexec_acceptable st i : (forall n, reduced (st n)) -> clean i ->
  facceptable (fun st' => forall n, reduced (st' n)) (fexec st i).
Proof.
  intros D C.
  assert (U : forall d m, facceptable reduced m -> facceptable (fun st' => forall n, reduced (st' n)) (r <- m ;; Ok (fupd st d r))).
  { intros d m H. eapply facc_bind; [exact H|]. intros r Hr n. unfold fupd. destruct (Nat.eqb n d); auto. }
  destruct i as [d|d a|d a b|d s|d a|d a|o d a b|o d a b|o d a b|d a n|o d b|o d b|d n]; cbn [fexec clean] in *.
  - apply U. apply zero_frac.
  - apply U. destruct (C32_of_Int a C) as (f & -> & R & _). exact R.
  - apply U. destruct C as [Ca Cb]. eapply facc_makes, Frac_make_makes; auto.
  - apply U. destruct (frac_string_cases s) as [(n & m & H)|H].
    + destruct (Z.eq_dec m 0) as [->|N]; [rewrite (Frac_of_string_zero s n H); exact I|].
      eapply facc_makes, Frac_of_string_makes; eauto.
    + rewrite (Frac_of_string_bad s H). exact I.
  - intros n. unfold fupd. destruct (Nat.eqb n d); auto.
  - apply U. destruct (C40_reciprocal (st a) (D a)) as [[_ ->]|[_ G]]; [exact I|eapply facc_gives, G].
  - apply U, facc_Fbin; auto.
  - apply U, facc_IFbin; auto.
  - apply U, facc_FIbin; auto.
  - apply U. destruct (F_pow_exact (st a) n (reduced_parts _ (D a)) C) as [(e & _ & _ & M)|[_ ->]]; [eapply facc_makes, M|exact I].
  - apply U. set (ot := if Nat.eqb d b then None else Some (st b)).
    assert (Hoc : forall y, ot = Some y -> reduced y).
    { intros y. unfold ot. destruct (Nat.eqb d b); [discriminate|]. intros [= <-]; auto. }
    assert (Rr : reduced (rd (st d) ot)) by (unfold ot; destruct (Nat.eqb d b); cbn; auto).
    eapply facc_agrees; [apply C35_assign_partial; auto|apply facc_Fbin; auto]. intros ->. contradiction.
  - apply U. destruct C as [No Ca]. eapply facc_agrees; [apply C35_assign_int_partial; auto|apply facc_FIbin; auto].
  - apply U. destruct (F_pow_assign_exact (st d) n (D d) C) as [(e & _ & _ & M)|[_ ->]]; [eapply facc_leaves, M|exact I].
Qed.
Lemma frun_acceptable p : forall st, (forall n, reduced (st n)) -> Forall clean p ->
  facceptable (fun st' => forall n, reduced (st' n)) (frun st p).
Proof.
  induction p as [|i p IH]; intros st D C; [exact D|]. inversion C; subst. cbn [frun].
  eapply facc_bind; [apply fexec_acceptable; auto|]. auto.
Qed.
