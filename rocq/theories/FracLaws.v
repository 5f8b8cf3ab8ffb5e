(** Laws between results of Frac's operators: proofs, by comparing over Q. *)
From Coq Require Import QArith Qpower ZifyBool.
From Verif Require Import Base IntModel IntSpec IntBasics FracModel FracSpec FracProofs PropsFrac FracHistory.
Local Open Scope Z_scope.

(** Both return the same reduced object, unless one aborts. *)
Definition agree (m n : res Frac) : Prop := m = Abort \/ n = Abort \/ exists r, reduced r /\ m = Ok r /\ n = Ok r.
(** Without the exception. *)
Definition same (m n : res Frac) : Prop := exists r, reduced r /\ m = Ok r /\ n = Ok r.
Definition f0 : Frac := mkFrac (mkInt [0] false) (mkInt [1] false).
Definition f1 : Frac := mkFrac (mkInt [1] false) (mkInt [1] false).
Lemma f0_reduced : reduced f0. Proof. exr. Qed.
Lemma f1_reduced : reduced f1. Proof. exr. Qed.
Lemma f0_val : (Fval f0 == 0)%Q. Proof. reflexivity. Qed.
Lemma f1_val : (Fval f1 == 1)%Q. Proof. reflexivity. Qed.

(** *** Proofs: everything is compared over Q *)
Lemma weak_agree m n q q' : weak m q -> weak n q' -> (q == q')%Q -> agree m n.
Proof.
  intros [->|(r & -> & R & V)] [->|(r' & -> & R' & V')] E; unfold agree; auto. right; right. exists r. split; [auto|]. split; [auto|].
  f_equal. apply reduced_unique; auto. rewrite V, V', E. reflexivity.
Qed.
Lemma weak_ok r : reduced r -> weak (Ok r) (Fval r).
Proof. intros R. right. exists r. split; [auto|]. split; [auto|reflexivity]. Qed.
Lemma weak_bind m q (k : Frac -> res Frac) (h : Q -> Q) : weak m q -> (forall r, reduced r -> (Fval r == q)%Q -> weak (k r) (h q)) -> weak (r <- m ;; k r) (h q).
Proof. intros [->|(r & -> & R & V)] H; [left; reflexivity|cbn [bind]; apply H; auto]. Qed.
Lemma w_add f g p q : reduced f -> reduced g -> (Fval f == p)%Q -> (Fval g == q)%Q -> weak (F_add f g) (p + q).
Proof. intros Rf Rg E1 E2. eapply weak_eq; [eapply gives_weak, C33_frac_frac; auto|]. rewrite E1, E2. reflexivity. Qed.
Lemma w_sub f g p q : reduced f -> reduced g -> (Fval f == p)%Q -> (Fval g == q)%Q -> weak (F_sub f g) (p - q).
Proof. intros Rf Rg E1 E2. eapply weak_eq; [eapply gives_weak, C33_frac_frac; auto|]. rewrite E1, E2. reflexivity. Qed.
Lemma w_mul f g p q : reduced f -> reduced g -> (Fval f == p)%Q -> (Fval g == q)%Q -> weak (F_mul f g) (p * q).
Proof. intros Rf Rg E1 E2. eapply weak_eq; [eapply gives_weak, C33_frac_frac; auto|]. rewrite E1, E2. reflexivity. Qed.
Lemma w_div f g p q : reduced f -> reduced g -> (Fval f == p)%Q -> (Fval g == q)%Q -> ~ (q == 0)%Q -> weak (F_div f g) (p / q).
Proof.
  intros Rf Rg E1 E2 N. eapply weak_eq; [eapply gives_weak, C33_frac_frac; auto; rewrite E2; exact N|]. rewrite E1, E2. reflexivity.
Qed.
Lemma w_recip f q : reduced f -> (Fval f == q)%Q -> ~ (q == 0)%Q -> weak (reciprocal f) (/ q).
Proof.
  intros R E N. destruct (C40_reciprocal f R) as [[Z _]|[_ G]]; [rewrite E in Z; contradiction|].
  eapply weak_eq; [eapply gives_weak, G|]. rewrite E. reflexivity.
Qed.
Lemma w_pow f n q : reduced f -> (Fval f == q)%Q -> canonical n -> exact_exponent (Z.abs (val n)) -> ((q == 0)%Q -> 0 <= val n) -> weak (F_pow f n) (q ^ val n).
Proof.
  intros R E C X N. destruct (C36_pow f n R C X) as [(Z & L & _)|[_ G]]; [rewrite E in Z; apply N in Z; lia|].
  eapply weak_eq; [eapply gives_weak, G|]. rewrite E. reflexivity.
Qed.

Section Laws.
Variables f g h : Frac.
Hypotheses (Rf : reduced f) (Rg : reduced g) (Rh : reduced h).
Let p := Fval f. Let q := Fval g. Let r := Fval h.
Lemma add_assoc : agree (a <- F_add f g ;; F_add a h) (b <- F_add g h ;; F_add f b).
Proof.
  eapply weak_agree.
  - apply (weak_bind _ (p + q)%Q _ (fun z => z + r)%Q); [apply w_add; auto; reflexivity|]. intros a Ra Ea. apply w_add; auto. reflexivity.
  - apply (weak_bind _ (q + r)%Q _ (fun z => p + z)%Q); [apply w_add; auto; reflexivity|]. intros a Ra Ea. apply w_add; auto. reflexivity.
  - cbv beta. ring.
Qed.
Lemma mul_assoc : agree (a <- F_mul f g ;; F_mul a h) (b <- F_mul g h ;; F_mul f b).
Proof.
  eapply weak_agree.
  - apply (weak_bind _ (p * q)%Q _ (fun z => z * r)%Q); [apply w_mul; auto; reflexivity|]. intros a Ra Ea. apply w_mul; auto. reflexivity.
  - apply (weak_bind _ (q * r)%Q _ (fun z => p * z)%Q); [apply w_mul; auto; reflexivity|]. intros a Ra Ea. apply w_mul; auto. reflexivity.
  - cbv beta. ring.
Qed.
Lemma distr : agree (s <- F_add g h ;; F_mul f s) (a <- F_mul f g ;; b <- F_mul f h ;; F_add a b).
Proof.
  eapply weak_agree.
  - apply (weak_bind _ (q + r)%Q _ (fun z => p * z)%Q); [apply w_add; auto; reflexivity|]. intros a Ra Ea. apply w_mul; auto. reflexivity.
  - apply (weak_bind _ (p * q)%Q _ (fun z => z + p * r)%Q); [apply w_mul; auto; reflexivity|]. intros a Ra Ea.
    apply (weak_bind _ (p * r)%Q _ (fun z => p * q + z)%Q); [apply w_mul; auto; reflexivity|]. intros b Rb Eb. apply w_add; auto.
  - cbv beta. ring.
Qed.
Lemma sub_add : agree (d <- F_sub f g ;; F_add d g) (Ok f).
Proof.
  eapply weak_agree; [|apply weak_ok; auto|].
  - apply (weak_bind _ (p - q)%Q _ (fun z => z + q)%Q); [apply w_sub; auto; reflexivity|]. intros a Ra Ea. apply w_add; auto. reflexivity.
  - cbv beta. fold p. ring.
Qed.
Lemma sub_sub : agree (d <- F_sub f g ;; F_sub d h) (s <- F_add g h ;; F_sub f s).
Proof.
  eapply weak_agree.
  - apply (weak_bind _ (p - q)%Q _ (fun z => z - r)%Q); [apply w_sub; auto; reflexivity|]. intros a Ra Ea. apply w_sub; auto. reflexivity.
  - apply (weak_bind _ (q + r)%Q _ (fun z => p - z)%Q); [apply w_add; auto; reflexivity|]. intros a Ra Ea. apply w_sub; auto. reflexivity.
  - cbv beta. ring.
Qed.
Lemma div_mul : ~ (q == 0)%Q -> agree (d <- F_div f g ;; F_mul d g) (Ok f).
Proof.
  intros N. eapply weak_agree; [|apply weak_ok; auto|].
  - apply (weak_bind _ (p / q)%Q _ (fun z => z * q)%Q); [apply w_div; auto; reflexivity|]. intros a Ra Ea. apply w_mul; auto. reflexivity.
  - cbv beta. fold p. field. exact N.
Qed.
Lemma div_div : ~ (q == 0)%Q -> ~ (r == 0)%Q -> agree (d <- F_div f g ;; F_div d h) (m <- F_mul g h ;; F_div f m).
Proof.
  intros N N'. eapply weak_agree.
  - apply (weak_bind _ (p / q)%Q _ (fun z => z / r)%Q); [apply w_div; auto; reflexivity|]. intros a Ra Ea. apply w_div; auto. reflexivity.
  - apply (weak_bind _ (q * r)%Q _ (fun z => p / z)%Q); [apply w_mul; auto; reflexivity|]. intros a Ra Ea. apply w_div; auto; [reflexivity|].
    intros Z. apply Qmult_integral in Z as [Z|Z]; contradiction.
  - cbv beta. field. auto.
Qed.
Lemma div_recip : ~ (q == 0)%Q -> agree (F_div f g) (v <- reciprocal g ;; F_mul f v).
Proof.
  intros N. eapply weak_agree.
  - apply (w_div f g p q); auto; reflexivity.
  - apply (weak_bind _ (/ q)%Q _ (fun z => p * z)%Q); [apply w_recip; auto; reflexivity|]. intros a Ra Ea. apply w_mul; auto. reflexivity.
  - cbv beta. reflexivity.
Qed.
End Laws.

(** reduced numbers are the smallest *)
Lemma reduced_least r t b : reduced r -> b <> 0 -> (Fval r == ratio t b)%Q -> Z.abs (val (top r)) <= Z.abs t /\ val (bot r) <= Z.abs b.
Proof.
  intros (_ & _ & P & G) Nb E. unfold Fval in E. apply (ratio_eq (val (top r)) (val (bot r)) t b) in E; [|lia|auto].
  assert (D : (val (bot r) | b)). { apply (Z.gauss _ (val (top r))); [exists t; lia|rewrite Z.gcd_comm; exact G]. }
  destruct D as [k ->]. assert (t = k * val (top r)) as -> by nia.
  assert (1 <= Z.abs k) by nia. rewrite !Z.abs_mul, (Z.abs_eq (val (bot r))) by lia. clear - H P. split; nia.
Qed.
Lemma small_ok m q t b : makes m t b -> b <> 0 -> (ratio t b == q)%Q -> Z.abs t < 10 ^ 18 -> Z.abs b < 10 ^ 18 ->
  exists r, m = Ok r /\ reduced r /\ (Fval r == q)%Q /\ Z.abs (val (top r)) <= Z.abs t /\ val (bot r) <= Z.abs b.
Proof.
  intros M N E Lt Lb. destruct (makes_gives m t b q M N E) as [[_ (r & -> & R & V)]|[H _]].
  - exists r. assert (L : Z.abs (val (top r)) <= Z.abs t /\ val (bot r) <= Z.abs b) by (apply reduced_least; auto; rewrite V, E; reflexivity). tauto.
  - destruct H. apply norm_safe_small; auto.
Qed.
(** numerator at most t, denominator at most b *)
Definition within (f : Frac) (t b : Z) : Prop := reduced f /\ Z.abs (val (top f)) <= t /\ val (bot f) <= b.
Lemma small_add f g t b t' b' : within f t b -> within g t' b' -> t * b' + t' * b < 10 ^ 18 -> b * b' < 10 ^ 18 ->
  exists r, F_add f g = Ok r /\ within r (t * b' + t' * b) (b * b') /\ (Fval r == Fval f + Fval g)%Q.
Proof.
  intros (Rf & Hf & Hf') (Rg & Hg & Hg') L1 L2. pose proof (den_pos f Rf). pose proof (den_pos g Rg).
  destruct (small_ok (F_add f g) (Fval f + Fval g) _ _ (F_add_makes f g (reduced_parts f Rf) (reduced_parts g Rg))) as (r & E & R & V & A & C).
  - nia.
  - apply ratio_add; lia.
  - nia.
  - nia.
  - exists r. split; [exact E|]. split; [|exact V]. split; [exact R|]. split; [nia|]. rewrite Z.abs_eq in C; nia.
Qed.
Lemma small_mul f g t b t' b' : within f t b -> within g t' b' -> t * t' < 10 ^ 18 -> b * b' < 10 ^ 18 ->
  exists r, F_mul f g = Ok r /\ within r (t * t') (b * b') /\ (Fval r == Fval f * Fval g)%Q.
Proof.
  intros (Rf & Hf & Hf') (Rg & Hg & Hg') L1 L2. pose proof (den_pos f Rf). pose proof (den_pos g Rg).
  destruct (small_ok (F_mul f g) (Fval f * Fval g) _ _ (F_mul_makes f g (reduced_parts f Rf) (reduced_parts g Rg))) as (r & E & R & V & A & C).
  - nia.
  - apply ratio_mul; lia.
  - rewrite Z.abs_mul. nia.
  - nia.
  - exists r. split; [exact E|]. split; [|exact V]. split; [exact R|]. rewrite Z.abs_mul in A. split; [nia|]. rewrite Z.abs_eq in C; nia.
Qed.
Lemma gives_eq m n q q' A C : gives m q A -> gives n q' C -> (q == q')%Q -> (A <-> C) -> m = n.
Proof.
  intros [[HA (r & -> & R & V)]|[H ->]] [[HC (r' & -> & R' & V')]|[H' ->]] E I; try tauto.
  f_equal. apply reduced_unique; auto. rewrite V, V', E. reflexivity.
Qed.
Lemma commute f g : reduced f -> reduced g -> F_add f g = F_add g f /\ F_mul f g = F_mul g f.
Proof.
  intros Rf Rg. destruct (C33_frac_frac f g Rf Rg) as (A & _ & M & _). destruct (C33_frac_frac g f Rg Rf) as (A' & _ & M' & _). split.
  - eapply gives_eq; [exact A|exact A'|ring|]. rewrite (Z.add_comm (val (top f) * _)), (Z.mul_comm (val (bot f))). reflexivity.
  - eapply gives_eq; [exact M|exact M'|ring|]. rewrite (Z.mul_comm (val (top f))), (Z.mul_comm (val (bot f))). reflexivity.
Qed.
Lemma pow_laws f g m n k : reduced f -> reduced g -> canonical m -> canonical n -> canonical k ->
  exact_exponent (Z.abs (val m)) -> exact_exponent (Z.abs (val n)) -> exact_exponent (Z.abs (val k)) -> ~ (Fval f == 0)%Q -> ~ (Fval g == 0)%Q ->
  (val k = val m + val n -> agree (a <- F_pow f m ;; b <- F_pow f n ;; F_mul a b) (F_pow f k)) /\
  (val k = val m * val n -> agree (a <- F_pow f m ;; F_pow a n) (F_pow f k)) /\
  agree (a <- F_pow f m ;; b <- F_pow g m ;; F_mul a b) (c <- F_mul f g ;; F_pow c m).
Proof.
  intros Rf Rg Cm Cn Ck Xm Xn Xk Nf Ng. set (p := Fval f) in *. set (q := Fval g) in *.
  assert (Z : forall y, ~ (y == 0)%Q -> forall e, ~ (y ^ e == 0)%Q) by (intros y Ny e; apply Qpower_not_0; exact Ny).
  split; [|split].
  - intros E. eapply weak_agree.
    + apply (weak_bind _ (p ^ val m)%Q _ (fun z => z * p ^ val n)%Q); [apply w_pow; auto; [reflexivity|contradiction]|]. intros a Ra Ea.
      apply (weak_bind _ (p ^ val n)%Q _ (fun z => p ^ val m * z)%Q); [apply w_pow; auto; [reflexivity|contradiction]|]. intros b Rb Eb. apply w_mul; auto.
    + apply (w_pow f k p); auto; [reflexivity|contradiction].
    + cbv beta. rewrite E, Qpower_plus; auto. reflexivity.
  - intros E. eapply weak_agree.
    + apply (weak_bind _ (p ^ val m)%Q _ (fun z => z ^ val n)%Q); [apply w_pow; auto; [reflexivity|contradiction]|]. intros a Ra Ea.
      apply w_pow; auto. intros H. destruct (Z p Nf (val m) H).
    + apply (w_pow f k p); auto; [reflexivity|contradiction].
    + cbv beta. rewrite E, Qpower_mult. reflexivity.
  - eapply weak_agree.
    + apply (weak_bind _ (p ^ val m)%Q _ (fun z => z * q ^ val m)%Q); [apply w_pow; auto; [reflexivity|contradiction]|]. intros a Ra Ea.
      apply (weak_bind _ (q ^ val m)%Q _ (fun z => p ^ val m * z)%Q); [apply w_pow; auto; [reflexivity|contradiction]|]. intros b Rb Eb. apply w_mul; auto.
    + apply (weak_bind _ (p * q)%Q _ (fun z => z ^ val m)%Q); [apply w_mul; auto; reflexivity|]. intros a Ra Ea.
      apply w_pow; auto. intros H. apply Qmult_integral in H as [H|H]; contradiction.
    + cbv beta. rewrite Qmult_power. reflexivity.
Qed.
Lemma gives_ok m q A f : gives m q A -> reduced f -> (Fval f == q)%Q -> A /\ m = Ok f \/ ~ A /\ m = Abort.
Proof.
  intros [[H (r & -> & R & V)]|H] Rf E; [left; split; [auto|]|auto]. f_equal. apply reduced_unique; auto. rewrite V, E. reflexivity.
Qed.
Lemma units_iff f : reduced f ->
  (norm_safe (val (top f)) (val (bot f)) /\ F_add f f0 = Ok f /\ F_sub f f0 = Ok f /\ F_mul f f1 = Ok f /\ F_div f f1 = Ok f) \/
  (~ norm_safe (val (top f)) (val (bot f)) /\ F_add f f0 = Abort /\ F_sub f f0 = Abort /\ F_mul f f1 = Abort /\ F_div f f1 = Abort).
Proof.
  intros R. destruct (C33_frac_frac f f0 R f0_reduced) as (A & B & _). destruct (C33_frac_frac f f1 R f1_reduced) as (_ & _ & C & D & _).
  specialize (D ltac:(discriminate)). change (val (top f0)) with 0 in *. change (val (bot f0)) with 1 in *. change (val (top f1)) with 1 in *. change (val (bot f1)) with 1 in *.
  rewrite ?Z.mul_0_l, ?Z.mul_1_r, ?Z.add_0_r, ?Z.sub_0_r in *.
  apply (gives_ok _ _ _ f) in A; [|auto|rewrite f0_val; ring]. apply (gives_ok _ _ _ f) in B; [|auto|rewrite f0_val; ring].
  apply (gives_ok _ _ _ f) in C; [|auto|rewrite f1_val; ring]. apply (gives_ok _ _ _ f) in D; [|auto|rewrite f1_val; field].
  tauto.
Qed.
Lemma norm_safe_0 b : 0 < b -> (norm_safe 0 b <-> div_safe b b).
Proof.
  intros P. unfold norm_safe. change (Z.gcd 0 b) with (Z.abs b). change (Z.abs 0) with 0. rewrite (Z.abs_eq b), Z.max_r, Z.min_l by lia. split; [tauto|]. intros H.
  split; [constructor|]. split; [left; lia|exact H].
Qed.
Lemma norm_safe_same a b : 0 < Z.abs a -> Z.abs a = Z.abs b -> (norm_safe a b <-> div_safe (Z.abs a) (Z.abs a)).
Proof.
  intros P E. unfold norm_safe. rewrite <- (Z.gcd_abs_l a b), <- (Z.gcd_abs_r (Z.abs a) b), <- E, Z.gcd_diag, Z.abs_involutive, Z.max_id, Z.min_id.
  split; [tauto|]. intros H. split; [|auto]. constructor; [lia|exact H|]. rewrite Z.mod_same by lia. constructor.
Qed.
Lemma self_iff f : reduced f -> let t := Z.abs (val (top f)) in let b := val (bot f) in
  (div_safe (b * b) (b * b) /\ F_sub f f = Ok f0 \/ ~ div_safe (b * b) (b * b) /\ F_sub f f = Abort) /\
  (div_safe b b /\ F_mul f f0 = Ok f0 \/ ~ div_safe b b /\ F_mul f f0 = Abort) /\
  (t <> 0 -> div_safe (t * b) (t * b) /\ F_div f f = Ok f1 \/ ~ div_safe (t * b) (t * b) /\ F_div f f = Abort).
Proof.
  intros R t b. pose proof (den_pos f R) as P. fold b in P. destruct (C33_frac_frac f f R R) as (_ & S & _ & D & _). destruct (C33_frac_frac f f0 R f0_reduced) as (_ & _ & M & _).
  fold b in S, D, M. split; [|split].
  - apply (gives_ok _ _ _ f0) in S; [|exact f0_reduced|rewrite f0_val; ring]. rewrite Z.sub_diag in S. rewrite (norm_safe_0 (b * b)) in S by nia. exact S.
  - apply (gives_ok _ _ _ f0) in M; [|exact f0_reduced|rewrite f0_val; ring]. change (val (top f0)) with 0 in M. change (val (bot f0)) with 1 in M. rewrite Z.mul_0_r, Z.mul_1_r in M.
    rewrite (norm_safe_0 b) in M by lia. exact M.
  - intros N. assert (N' : ~ (Fval f == 0)%Q) by (rewrite (Fval_0 f R); unfold t in N; lia). specialize (D N').
    apply (gives_ok _ _ _ f1) in D; [|exact f1_reduced|rewrite f1_val; field; exact N'].
    assert (E : Z.abs (val (top f) * b) = t * b) by (rewrite Z.abs_mul, (Z.abs_eq b) by lia; reflexivity).
    rewrite norm_safe_same, E in D; [exact D|unfold t in *; nia|]. rewrite (Z.mul_comm b). reflexivity.
Qed.
Lemma within_reduced f t b : within f t b -> reduced f. Proof. intros H. apply H. Qed.
Lemma same_intro m n r r' : m = Ok r -> n = Ok r' -> reduced r -> reduced r' -> (Fval r == Fval r')%Q -> same m n.
Proof. intros -> -> R R' E. exists r. split; [auto|]. split; [auto|]. f_equal. apply reduced_unique; auto. rewrite E. reflexivity. Qed.
Lemma within_pos f t b : within f t b -> 0 <= t /\ 1 <= b.
Proof. intros (R & H & H'). pose proof (den_pos f R). lia. Qed.
Lemma small_laws f g h N : within f N N -> within g N N -> within h N N ->
  (N <= 690000 -> same (a <- F_add f g ;; F_add a h) (b <- F_add g h ;; F_add f b) /\ same (a <- F_mul f g ;; F_mul a h) (b <- F_mul g h ;; F_mul f b)) /\
  (N <= 26000 -> same (s <- F_add g h ;; F_mul f s) (a <- F_mul f g ;; b <- F_mul f h ;; F_add a b)).
Proof.
  intros Wf Wg Wh. assert (P : 1 <= N) by (apply within_pos in Wf; lia). split; intros L.
  - assert (L2 : N * N <= 690000 * 690000) by nia. assert (L3 : N * N * N <= 690000 * 690000 * 690000) by nia. split.
    + destruct (small_add f g N N N N) as (a & Ea & Wa & Va); [assumption..|lia|lia|]. destruct (small_add a h _ _ N N Wa Wh) as (s & Es & Ws & Vs); [lia|lia|].
      destruct (small_add g h N N N N) as (b & Eb & Wb & Vb); [assumption..|lia|lia|]. destruct (small_add f b N N _ _ Wf Wb) as (u & Eu & Wu & Vu); [lia|lia|].
      eapply same_intro; [rewrite Ea; exact Es|rewrite Eb; exact Eu|eapply within_reduced; eauto|eapply within_reduced; eauto|]. rewrite Vs, Vu, Va, Vb. ring.
    + destruct (small_mul f g N N N N) as (a & Ea & Wa & Va); [assumption..|lia|lia|]. destruct (small_mul a h _ _ N N Wa Wh) as (s & Es & Ws & Vs); [lia|lia|].
      destruct (small_mul g h N N N N) as (b & Eb & Wb & Vb); [assumption..|lia|lia|]. destruct (small_mul f b N N _ _ Wf Wb) as (u & Eu & Wu & Vu); [lia|lia|].
      eapply same_intro; [rewrite Ea; exact Es|rewrite Eb; exact Eu|eapply within_reduced; eauto|eapply within_reduced; eauto|]. rewrite Vs, Vu, Va, Vb. ring.
  - assert (L2 : N * N <= 26000 * 26000) by nia. assert (L3 : N * (N * N) <= 26000 * (26000 * 26000)) by nia. assert (L4 : N * N * (N * N) <= 26000 * 26000 * (26000 * 26000)) by nia.
    destruct (small_add g h N N N N) as (s & Es & Ws & Vs); [assumption..|lia|lia|]. destruct (small_mul f s N N _ _ Wf Ws) as (u & Eu & Wu & Vu); [lia|lia|].
    destruct (small_mul f g N N N N) as (a & Ea & Wa & Va); [assumption..|lia|lia|]. destruct (small_mul f h N N N N) as (b & Eb & Wb & Vb); [assumption..|lia|lia|].
    destruct (small_add a b _ _ _ _ Wa Wb) as (v & Ev & Wv & Vv); [lia|lia|].
    eapply same_intro; [rewrite Es; exact Eu|rewrite Ea; cbn [bind]; rewrite Eb; exact Ev|eapply within_reduced; eauto|eapply within_reduced; eauto|]. rewrite Vu, Vv, Vs, Va, Vb. ring.
Qed.
(** *** Order *)
Lemma lt_spec f g : reduced f -> reduced g -> exists l, F_lt f g = Ok l /\ (l = true <-> (Fval f < Fval g)%Q).
Proof. intros Rf Rg. destruct (C34_comparisons f g Rf Rg) as (e & l & m & _ & _ & E & _ & _ & _ & _ & H & _). eauto. Qed.
Lemma lt_iff f g : reduced f -> reduced g -> (F_lt f g = Ok true <-> (Fval f < Fval g)%Q).
Proof. intros Rf Rg. destruct (lt_spec f g Rf Rg) as (l & -> & H). rewrite <- H. split; [intros [= E]; exact E|intros ->; reflexivity]. Qed.
Lemma lt_same f g a b : reduced f -> reduced g -> reduced a -> reduced b -> ((Fval a < Fval b)%Q <-> (Fval f < Fval g)%Q) -> F_lt a b = F_lt f g.
Proof.
  intros Rf Rg Ra Rb E. destruct (lt_spec f g Rf Rg) as (l & -> & H). destruct (lt_spec a b Ra Rb) as (l' & -> & H'). f_equal.
  rewrite E, <- H in H'. apply Bool.eq_iff_eq_true. exact H'.
Qed.
Lemma weak_value m q r : weak m q -> m = Ok r -> reduced r /\ (Fval r == q)%Q.
Proof. intros [->|(r' & -> & H)] E; [discriminate|]. injection E as <-. exact H. Qed.
Lemma order_laws f g h a b : reduced f -> reduced g -> reduced h ->
  (F_lt f f = Ok false) /\
  (F_lt f g = Ok true -> F_lt g h = Ok true -> F_lt f h = Ok true) /\
  (F_lt f g = Ok true \/ F_eq f g = Ok true \/ F_lt g f = Ok true) /\
  (F_add f h = Ok a -> F_add g h = Ok b -> F_lt a b = F_lt f g) /\
  (F_lt f0 h = Ok true -> F_mul f h = Ok a -> F_mul g h = Ok b -> F_lt a b = F_lt f g) /\
  (F_lt h f0 = Ok true -> F_mul f h = Ok a -> F_mul g h = Ok b -> F_lt a b = F_lt g f).
Proof.
  intros Rf Rg Rh. split; [|split; [|split; [|split; [|split]]]].
  - destruct (lt_spec f f Rf Rf) as (l & -> & H). destruct l; auto. destruct H as [H _]. specialize (H eq_refl). apply Qlt_irrefl in H. contradiction.
  - rewrite !lt_iff by auto. apply Qlt_trans.
  - rewrite !lt_iff by auto. destruct (C34_comparisons f g Rf Rg) as (e & _ & _ & E & _ & _ & _ & _ & _ & H & _). rewrite E.
    destruct (Q_dec (Fval f) (Fval g)) as [[L|L]|L]; auto. right; left. f_equal. apply H. exact L.
  - intros Ea Eb. apply (weak_value _ (Fval f + Fval h)%Q) in Ea as [Ra Va]; [|apply w_add; auto; reflexivity].
    apply (weak_value _ (Fval g + Fval h)%Q) in Eb as [Rb Vb]; [|apply w_add; auto; reflexivity].
    apply lt_same; auto. rewrite Va, Vb. apply Qplus_lt_l.
  - rewrite lt_iff, f0_val by (auto; exact f0_reduced). intros P Ea Eb. apply (weak_value _ (Fval f * Fval h)%Q) in Ea as [Ra Va]; [|apply w_mul; auto; reflexivity].
    apply (weak_value _ (Fval g * Fval h)%Q) in Eb as [Rb Vb]; [|apply w_mul; auto; reflexivity].
    apply lt_same; auto. rewrite Va, Vb. apply Qmult_lt_r. exact P.
  - rewrite lt_iff, f0_val by (auto; exact f0_reduced). intros P Ea Eb. apply (weak_value _ (Fval f * Fval h)%Q) in Ea as [Ra Va]; [|apply w_mul; auto; reflexivity].
    apply (weak_value _ (Fval g * Fval h)%Q) in Eb as [Rb Vb]; [|apply w_mul; auto; reflexivity].
    apply lt_same; auto. rewrite Va, Vb. assert (P' : (0 < - Fval h)%Q) by (apply (Qplus_lt_l _ _ (Fval h)); ring_simplify; exact P).
    rewrite <- (Qmult_lt_r (Fval g) (Fval f) _ P'), <- (Qplus_lt_l (Fval g * - Fval h) _ (Fval f * Fval h + Fval g * Fval h)).
    assert (E1 : (Fval g * - Fval h + (Fval f * Fval h + Fval g * Fval h) == Fval f * Fval h)%Q) by ring.
    assert (E2 : (Fval f * - Fval h + (Fval f * Fval h + Fval g * Fval h) == Fval g * Fval h)%Q) by ring. rewrite E1, E2. reflexivity.
Qed.
