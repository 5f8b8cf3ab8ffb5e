(** Proofs about compound assignments of Frac when memory runs out (FracAllocModel.v). *)
From Coq Require Import ZifyBool.
From Verif Require Import Base IntModel IntSpec IntBasics IntAddSub IntMul IntDiv IntMod FracModel FracProofs FracPow AllocModel IntAllocModel IntAllocSpec IntAllocProofs FracAllocModel FracAllocSpec.
Import ListNotations.
Local Open Scope list_scope.
Local Open Scope Z_scope.

Definition fruns {A} (p : fstep A) (s : Frac) (Q : Frac -> res A -> Prop) (L : Frac -> Prop) : Prop :=
  forall n, match p s n with (z, _, Fin m) => Q z m | (z, _, NoMem) => L z end.
Section Rules.
Context (fails : nat -> bool) {A B : Type} (k : A -> fstep B) (s : Frac) (Q : Frac -> res B -> Prop) (L : Frac -> Prop).
Lemma f_may m : L s -> match m with Ok a => fruns (k a) s Q L | _ => Q s (stopped m) end -> fruns (fnow (fmay fails m) k) s Q L.
Proof. intros Ls R n. unfold fnow, fmay. destruct (fails n); [exact Ls|]. destruct m; [apply R|exact R..]. Qed.
Lemma f_just m : match m with Ok a => fruns (k a) s Q L | _ => Q s (stopped m) end -> fruns (fnow (fjust m) k) s Q L.
Proof. intros R n. unfold fnow, fjust. destruct m; [apply R|exact R..]. Qed.
Lemma f_bind (p : fstep A) Q1 : fruns p s Q1 L -> (forall z m, Q1 z m -> match m with Ok a => fruns (k a) z Q L | _ => Q z (stopped m) end) -> fruns (fnow p k) s Q L.
Proof. intros R K n. specialize (R n). unfold fnow. destruct (p s n) as [[z j] [m|]]; [|exact R]. specialize (K z m R). destruct m; [apply K|exact K..]. Qed.
End Rules.
Lemma f_here {B} (k : Frac -> fstep B) s Q L : fruns (k s) s Q L -> fruns (fnow fhere k) s Q L.
Proof. intros R n. apply R. Qed.
Lemma f_weak {A} (p : fstep A) s (Q Q' : Frac -> res A -> Prop) (L L' : Frac -> Prop) : fruns p s Q L -> (forall z m, Q z m -> Q' z m) -> (forall z, L z -> L' z) -> fruns p s Q' L'.
Proof. intros R HQ HL n. specialize (R n). destruct (p s n) as [[z j] [m|]]; auto. Qed.
Lemma f_top {A} (p : step A) t b Q L : runs p t Q L -> fruns (on_top p) (mkFrac t b) (fun z m => bot z = b /\ Q (top z) m) (fun z => L (top z) /\ bot z = b).
Proof. intros R n. specialize (R n). unfold on_top. cbn [top bot]. destruct (p t n) as [[z j] [m|]]; cbn [top bot]; auto. Qed.
Lemma f_bot {A} (p : step A) t b Q L : runs p b Q L -> fruns (on_bot p) (mkFrac t b) (fun z m => top z = t /\ Q (bot z) m) (fun z => top z = t /\ L (bot z)).
Proof. intros R n. specialize (R n). unfold on_bot. cbn [top bot]. destruct (p b n) as [[z j] [m|]]; cbn [top bot]; auto. Qed.

(** what [ends] says of a run that is not out of memory *)
Definition as_int (F : res Int) (x z : Int) (m : res unit) : Prop := m = (_ <- F ;; Ok tt) /\ match F with Ok r => z = r | Throw _ => z = x | _ => True end.
Lemma ends_runs p F L x : ends p F L x -> runs p x (as_int F x) L.
Proof. exact (fun H => H). Qed.
Definition as_frac (F : Frac * res unit) (z : Frac) (m : res unit) : Prop := m = snd F /\ match m with Ok _ | Throw _ => z = fst F | _ => True end.
Lemma frac_eta z : mkFrac (top z) (bot z) = z. Proof. destruct z; reflexivity. Qed.
Lemma fail_snd {A} f (m : res A) : (forall a, m <> Ok a) -> snd (fail_with f m) = stopped m /\ fst (fail_with f m) = f.
Proof. intros N. destruct m; split; try reflexivity. edestruct N; reflexivity. Qed.

(** one step on a member, then the rest *)
Lemma step_top (p : step unit) F (L : Frac -> Prop) (k : Frac -> fst_res) (q : fstep unit) t b :
  ends p F (fun z => L (mkFrac z b)) t -> (forall r, F = Ok r -> fruns q (mkFrac r b) (as_frac (k (mkFrac r b))) L) ->
  fruns (_ <!! on_top p ;; q) (mkFrac t b) (as_frac (fthen (set_top (mkFrac t b) F) k)) L.
Proof.
  intros E K. eapply f_bind.
  - eapply f_weak; [apply f_top, (ends_runs _ _ _ _ E)|exact (fun z m H => H)|]. intros z [Lz <-]. rewrite <- (frac_eta z). exact Lz.
  - intros z m (Hb & -> & H). destruct F as [r|e| | |]; cbn [bind stopped] in *; unfold set_top; cbn [fthen fail_with bot].
    + rewrite <- (frac_eta z), H, Hb. apply K. reflexivity.
    + split; [reflexivity|]. cbn. rewrite <- (frac_eta z), H, Hb. reflexivity.
    + split; [reflexivity|exact I].
    + split; [reflexivity|exact I].
    + split; [reflexivity|exact I].
Qed.
Lemma step_bot (p : step unit) F (L : Frac -> Prop) (k : Frac -> fst_res) (q : fstep unit) t b :
  ends p F (fun z => L (mkFrac t z)) b -> (forall r, F = Ok r -> fruns q (mkFrac t r) (as_frac (k (mkFrac t r))) L) ->
  fruns (_ <!! on_bot p ;; q) (mkFrac t b) (as_frac (fthen (set_bot (mkFrac t b) F) k)) L.
Proof.
  intros E K. eapply f_bind.
  - eapply f_weak; [apply f_bot, (ends_runs _ _ _ _ E)|exact (fun z m H => H)|]. intros z [<- Lz]. rewrite <- (frac_eta z). exact Lz.
  - intros z m (Hb & -> & H). destruct F as [r|e| | |]; cbn [bind stopped] in *; unfold set_bot; cbn [fthen fail_with top].
    + rewrite <- (frac_eta z), H, Hb. apply K. reflexivity.
    + split; [reflexivity|]. cbn. rewrite <- (frac_eta z), H, Hb. reflexivity.
    + split; [reflexivity|exact I].
    + split; [reflexivity|exact I].
    + split; [reflexivity|exact I].
Qed.
Lemma last_bot (p : step unit) F (L : Frac -> Prop) t b :
  ends p F (fun z => L (mkFrac t z)) b -> fruns (on_bot p) (mkFrac t b) (as_frac (set_bot (mkFrac t b) F)) L.
Proof.
  intros E. eapply f_weak; [apply f_bot, (ends_runs _ _ _ _ E)| |].
  - intros z m (Hb & -> & H). destruct F as [r|e| | |]; cbn [bind] in *; unfold set_bot; cbn [fail_with top]; (split; [reflexivity|]); cbn; auto; rewrite <- (frac_eta z), H, Hb; reflexivity.
  - intros z [<- Lz]. rewrite <- (frac_eta z). exact Lz.
Qed.
Lemma ends_weak p F (L L' : Int -> Prop) x : ends p F L x -> (forall z, L z -> L' z) -> ends p F L' x.
Proof. intros E H n. specialize (E n). destruct (p x n) as [[z j] [m|]]; auto. Qed.

(** *** Reduction *)
Lemma okrep_reads x : okrep x -> reads (val x) x.
Proof.
  intros H. split; [apply H|]. split; [reflexivity|]. intros N. destruct H as [W T]. split; auto. split; [|auto]. apply T. intros E. apply N. rewrite val_aval. destruct (negative x); lia.
Qed.
Section Reduce.
Context (fails : nat -> bool) (half : list Z -> list Z -> list Z).
Lemma reduction_runs t b : okrep t -> okrep b -> fruns (normalize_m fails) (mkFrac t b) (as_frac (normalize (mkFrac t b))) (left_by_reduction t b).
Proof.
  intros Ht Hb. unfold normalize_m, normalize. apply f_here. cbn [top bot].
  assert (H : exists t' b', okrep t' /\ okrep b' /\ ((t' = t /\ b' = b /\ negative b = false) \/ (negative b = true /\ bins t' = bins t /\ bins b' = bins b /\ val t' = - val t /\ val b' = - val b)) /\
    (if is_negative b then fthen (set_bot (mkFrac t b) (negate b)) (fun f => set_top f (negate (top f))) else (mkFrac t b, Ok tt)) = (mkFrac t' b', Ok tt) /\
    fruns (if is_negative b then _ <!! on_bot negate_m ;; on_top negate_m else fjust (Ok tt)) (mkFrac t b) (fun z m => z = mkFrac t' b' /\ m = Ok tt) (left_by_reduction t b)).
  { unfold is_negative. destruct (negative b) eqn:N.
    - destruct (negate_ok t ltac:(auto)) as (t' & Et & Vt & Bt & Wt & _). destruct (negate_ok b ltac:(auto)) as (b' & Eb & Vb & Bb & Wb & _).
      exists t', b'. splits.
      + split; auto. unfold aval. rewrite Bt. apply Ht.
      + split; auto. unfold aval. rewrite Bb. apply Hb.
      + right. auto.
      + unfold set_bot. rewrite Eb. cbn [fthen top]. unfold set_top. rewrite Et. reflexivity.
      + intros n. unfold fnow, on_bot, on_top. cbn [top bot]. unfold negate_m, andnow, here, just, put. rewrite Eb. cbn [top bot]. rewrite Et. auto.
    - exists t, b. splits; auto. intros n. cbn. auto. }
  destruct H as (t' & b' & Ht' & Hb' & S & -> & R). cbn [fthen].
  eapply f_bind; [exact R|]. intros z m [-> ->]. apply f_here. cbn [top bot].
  assert (L0 : left_by_reduction t b (mkFrac t' b')) by (exists t', b'; split; [exact S|left; reflexivity]).
  assert (G : Z.gcd (val t) (val b) = Z.gcd (val t') (val b')) by (destruct S as [(-> & -> & _)|(_ & _ & _ & -> & ->)]; rewrite ?Z.gcd_opp_l, ?Z.gcd_opp_r; reflexivity).
  apply f_may; [exact L0|]. destruct (GCD_ok t' b' Ht' Hb') as [G1 G2].
  destruct (GCD t' b') as [c|e| | |] eqn:Ec; cbn [stopped bind fail_with];
    [|split; [reflexivity|cbn; auto]..].
  assert (Hc : okrep c /\ val c = Z.gcd (val t') (val b')).
  { destruct (gcd_safe_dec (Z.max (Z.abs (val t')) (Z.abs (val b'))) (Z.min (Z.abs (val t')) (Z.abs (val b'))) ltac:(lia) ltac:(lia)) as [D|D];
      [destruct (G1 D) as (g & Eg & Og & Vg & _); injection Eg as <-; auto|specialize (G2 D); discriminate]. }
  destruct Hc as [Oc Vc]. assert (Rc : reads (Z.gcd (val t) (val b)) c) by (rewrite G, <- Vc; apply okrep_reads, Oc).
  apply (step_top _ _ _ (fun f => set_bot f (div_assign (bot f) (Some c)))).
  - eapply ends_weak; [apply (division_ends fails t' (Some c)); auto|]. intros z Hz. destruct (Z.eq_dec (val c) 0) as [Z0|Z0].
    + cbn [rd] in Hz. destruct Hz as [->|[[Hl _]|(Hl & _)]]; [exact L0|lia|lia].
    + exists t', b'. split; [exact S|]. right. exists c. splits; auto.
  - intros r Er. cbn [bot]. apply last_bot. eapply ends_weak; [apply (division_ends fails b' (Some c)); auto|].
    unfold div_assign in Er. cbn [rd] in Er. destruct (divide_gen t' c ltac:(auto) ltac:(auto)) as [(_ & E)|[(Nz & Hl & E)|(Nz & _ & [(_ & E)|(_ & q & E & C & V)])]]; rewrite E in Er; try discriminate.
    + intros z Hz. injection Er as <-. exists t', b'. split; [exact S|]. right. exists c. splits; auto. right. split; [|exact Hz]. cbn [top]. split; [apply canonical_zero|].
      symmetry. apply Z.quot_small_iff; [assumption|]. rewrite !abs_val by auto. exact Hl.
    + intros z Hz. injection Er as <-. exists t', b'. split; [exact S|]. right. exists c. splits; auto. right. split; [|exact Hz]. cbn [top]. split; auto.
Qed.
(** *** The operators *)
Lemma product_step x o : canonical x -> canonical (rd x o) ->
  exists r, mul_assign x o = Ok r /\ okrep r /\ val r = val x * val (rd x o) /\ ends (mul_assign_m fails half o) (mul_assign x o) (left_by_result half x r) x.
Proof.
  intros Cx Cy. destruct (mul_assign_okrep x o Cx) as (r & E & O & V & _); [intros y ->; exact Cy|]. exists r. splits; auto.
  eapply ends_weak; [apply mul_ends|]. intros z [->|(r' & E' & H)]; [left; reflexivity|]. rewrite E in E'. injection E' as <-. exact H.
Qed.
Lemma assign_ends s r : ends (assign_m fails half r) (Ok r) (left_by_result half s r) s.
Proof. intros n. unfold assign_m, left_by_result. destruct (fails n); [auto|cbn; auto]. Qed.
Definition parts (x : Frac) : Prop := canonical (top x) /\ canonical (bot x).
Lemma sum_frac (op : Int -> Int -> res Int) (f : Z -> Z -> Z) x y :
  (forall a b, canonical a -> canonical b -> exists r, op a b = Ok r /\ canonical r /\ val r = f (val a) (val b)) ->
  let g := rd x y in parts x -> parts g ->
  fends (Fm_addsub fails half op y) (F_addsub_assign op x y) (left_top_bot half x (f (val (top x) * val (bot g)) (val (top g) * val (bot x))) (val (bot x) * val (bot g))) x.
Proof.
  intros Hop g [Cx Cx'] [Cg Cg']. assert (Hb : rd (bot x) (bot_of y) = bot g) by (subst g; destruct y; reflexivity).
  destruct (product_step (bot x) (bot_of y) Cx' ltac:(rewrite Hb; exact Cg')) as (b & Eb & Ob & Vb & Rb). rewrite Hb in Vb.
  destruct (op_mul_ok (top x) (bot g)) as (a1 & E1 & C1 & V1); auto. destruct (op_mul_ok (top g) (bot x)) as (a2 & E2 & C2 & V2); auto.
  destruct (Hop a1 a2) as (t & Et & Ct & Vt); auto. rewrite V1, V2 in Vt.
  set (L := left_top_bot half x (f (val (top x) * val (bot g)) (val (top g) * val (bot x))) (val (bot x) * val (bot g))).
  assert (Rt : reads (f (val (top x) * val (bot g)) (val (top g) * val (bot x))) t) by (rewrite <- Vt; apply okrep_reads; auto).
  assert (Rb' : reads (val (bot x) * val (bot g)) b) by (rewrite <- Vb; apply okrep_reads; auto).
  assert (L1 : forall z, left_by_result half (top x) t z -> L (mkFrac z (bot x))) by (intros z H; exists t, b; splits; auto).
  assert (L2 : forall z, left_by_result half (bot x) b z -> L (mkFrac t z)) by (intros z H; exists t, b; splits; auto).
  assert (L3 : forall z, left_by_reduction t b z -> L z) by (intros z H; exists t, b; splits; auto).
  assert (L0 : L x) by (rewrite <- (frac_eta x); apply L1; left; reflexivity).
  assert (R : fruns (Fm_addsub fails half op y) x (as_frac (F_addsub_assign op x y)) L); [|exact R].
  unfold Fm_addsub, F_addsub_assign. apply f_here. fold g. rewrite E1. cbn [bind]. rewrite E2. cbn [bind]. rewrite Et. apply f_may; [exact L0|].
  destruct x as [tx bx]. cbn [top bot] in *.
  apply (step_top _ (Ok t)).
  - eapply ends_weak; [apply assign_ends|exact L1].
  - intros r Er. injection Er as <-. cbn [bot]. apply (step_bot _ _ _ normalize).
    + eapply ends_weak; [exact Rb|exact L2].
    + intros r Er. rewrite Eb in Er. injection Er as <-. eapply f_weak; [apply reduction_runs; auto|auto|exact L3].
Qed.
Lemma prod_frac x y : let g := rd x y in parts x -> parts g ->
  fends (Fm_mul fails half y) (F_mul_assign x y) (left_top_bot half x (val (top x) * val (top g)) (val (bot x) * val (bot g))) x.
Proof.
  intros g [Cx Cx'] [Cg Cg']. assert (Hb : rd (bot x) (bot_of y) = bot g) by (subst g; destruct y; reflexivity). assert (Ht : rd (top x) (top_of y) = top g) by (subst g; destruct y; reflexivity).
  destruct (product_step (bot x) (bot_of y) Cx' ltac:(rewrite Hb; exact Cg')) as (b & Eb & Ob & Vb & Rb). rewrite Hb in Vb.
  destruct (product_step (top x) (top_of y) Cx ltac:(rewrite Ht; exact Cg)) as (t & Et & Ot & Vt & Rt). rewrite Ht in Vt.
  set (L := left_top_bot half x (val (top x) * val (top g)) (val (bot x) * val (bot g))).
  assert (Rt' : reads (val (top x) * val (top g)) t) by (rewrite <- Vt; apply okrep_reads; auto).
  assert (Rb' : reads (val (bot x) * val (bot g)) b) by (rewrite <- Vb; apply okrep_reads; auto).
  assert (L1 : forall z, left_by_result half (top x) t z -> L (mkFrac z (bot x))) by (intros z H; exists t, b; splits; auto).
  assert (L2 : forall z, left_by_result half (bot x) b z -> L (mkFrac t z)) by (intros z H; exists t, b; splits; auto).
  assert (L3 : forall z, left_by_reduction t b z -> L z) by (intros z H; exists t, b; splits; auto).
  assert (R : fruns (Fm_mul fails half y) x (as_frac (F_mul_assign x y)) L); [|exact R].
  unfold Fm_mul, F_mul_assign. destruct x as [tx bx]. cbn [top bot] in *.
  apply (step_top _ _ _ (fun x => fthen (set_bot x (mul_assign (bot x) (bot_of y))) normalize)).
  - eapply ends_weak; [exact Rt|exact L1].
  - intros r Er. rewrite Et in Er. injection Er as <-. cbn [bot]. apply (step_bot _ _ _ normalize).
    + eapply ends_weak; [exact Rb|exact L2].
    + intros r Er. rewrite Eb in Er. injection Er as <-. eapply f_weak; [apply reduction_runs; auto|auto|exact L3].
Qed.
Lemma quot_frac x y : let g := rd x y in parts x -> parts g ->
  fends (Fm_div fails half y) (F_div_assign x y) (left_top_bot half x (val (top x) * val (bot g)) (val (bot x) * val (top g))) x.
Proof.
  intros g [Cx Cx'] [Cg Cg'].
  destruct (product_step (bot x) (Some (top g)) Cx' Cg) as (b & Eb & Ob & Vb & Rb). cbn [rd] in Vb.
  destruct (product_step (top x) (Some (bot g)) Cx Cg') as (t & Et & Ot & Vt & Rt). cbn [rd] in Vt.
  set (L := left_top_bot half x (val (top x) * val (bot g)) (val (bot x) * val (top g))).
  assert (Rt' : reads (val (top x) * val (bot g)) t) by (rewrite <- Vt; apply okrep_reads; auto).
  assert (Rb' : reads (val (bot x) * val (top g)) b) by (rewrite <- Vb; apply okrep_reads; auto).
  assert (L1 : forall z, left_by_result half (top x) t z -> L (mkFrac z (bot x))) by (intros z H; exists t, b; splits; auto).
  assert (L2 : forall z, left_by_result half (bot x) b z -> L (mkFrac t z)) by (intros z H; exists t, b; splits; auto).
  assert (L3 : forall z, left_by_reduction t b z -> L z) by (intros z H; exists t, b; splits; auto).
  assert (L0 : L x) by (rewrite <- (frac_eta x); apply L1; left; reflexivity).
  assert (R : fruns (Fm_div fails half y) x (as_frac (F_div_assign x y)) L); [|exact R].
  unfold Fm_div, F_div_assign. apply f_here. apply f_may; [exact L0|]. fold g. destruct x as [tx bx]. cbn [top bot] in *.
  apply (step_top _ _ _ (fun x => fthen (set_bot x (mul_assign (bot x) (Some (top g)))) normalize)).
  - eapply ends_weak; [exact Rt|exact L1].
  - intros r Er. rewrite Et in Er. injection Er as <-. cbn [bot]. apply (step_bot _ _ _ normalize).
    + eapply ends_weak; [exact Rb|exact L2].
    + intros r Er. rewrite Eb in Er. injection Er as <-. eapply f_weak; [apply reduction_runs; auto|auto|exact L3].
Qed.
Lemma int_prod_frac x a : parts x -> canonical a -> fends (FIm_mul fails half a) (FI_mul_assign x a) (left_top half x (val (top x) * val a)) x.
Proof.
  intros [Cx Cx'] Ca. destruct (product_step (top x) (Some a) Cx Ca) as (t & Et & Ot & Vt & Rt). cbn [rd] in Vt.
  assert (Rt' : reads (val (top x) * val a) t) by (rewrite <- Vt; apply okrep_reads; auto).
  assert (R : fruns (FIm_mul fails half a) x (as_frac (FI_mul_assign x a)) (left_top half x (val (top x) * val a))); [|exact R].
  unfold FIm_mul, FI_mul_assign. destruct x as [tx bx]. cbn [top bot] in *. apply (step_top _ _ _ normalize).
  - eapply ends_weak; [exact Rt|]. intros z H. exists t. auto.
  - intros r Er. rewrite Et in Er. injection Er as <-. eapply f_weak; [apply reduction_runs; auto|auto|]. intros z H. exists t. auto.
Qed.
Lemma int_quot_frac x a : parts x -> canonical a -> fends (FIm_div fails half a) (FI_div_assign x a) (left_bot half x (val (bot x) * val a)) x.
Proof.
  intros [Cx Cx'] Ca. destruct (product_step (bot x) (Some a) Cx' Ca) as (b & Eb & Ob & Vb & Rb). cbn [rd] in Vb.
  assert (Rb' : reads (val (bot x) * val a) b) by (rewrite <- Vb; apply okrep_reads; auto).
  assert (R : fruns (FIm_div fails half a) x (as_frac (FI_div_assign x a)) (left_bot half x (val (bot x) * val a))); [|exact R].
  unfold FIm_div, FI_div_assign. destruct x as [tx bx]. cbn [top bot] in *. apply (step_bot _ _ _ normalize).
  - eapply ends_weak; [exact Rb|]. intros z H. exists b. auto.
  - intros r Er. rewrite Eb in Er. injection Er as <-. eapply f_weak; [apply reduction_runs; auto|auto|]. intros z H. exists b. auto.
Qed.
Lemma int_sum_frac (is_sub : bool) x a : parts x -> canonical a ->
  let v := if is_sub then val (top x) - val (bot x) * val a else val (top x) + val (bot x) * val a in
  exists p, is_the (val (bot x) * val a) p /\
  fends (FIm_addsub fails (addsub_m fails half 3 is_sub) a) (fthen (set_top x (p <- op_mul (bot x) a ;; addsub_assign 3 is_sub (top x) (Some p))) normalize)
    (left_top_sum half (xorb is_sub (Bool.eqb (negative (top x)) (negative p))) x p v) x.
Proof.
  intros [Cx Cx'] Ca v. destruct (op_mul_ok (bot x) a) as (p & Ep & Cp & Vp); auto. exists p. split; [split; auto|].
  destruct (addsub_assign_ok is_sub (top x) (Some p)) as (t & Et & Ct & Vt); auto. { intros y Ey. injection Ey as <-. auto. } cbn [rd] in Vt. rewrite Vp in Vt.
  assert (R : fruns (FIm_addsub fails (addsub_m fails half 3 is_sub) a) x (as_frac (fthen (set_top x (p <- op_mul (bot x) a ;; addsub_assign 3 is_sub (top x) (Some p))) normalize))
    (left_top_sum half (xorb is_sub (Bool.eqb (negative (top x)) (negative p))) x p v)); [|exact R].
  unfold FIm_addsub. apply f_here. rewrite Ep. cbn [bind]. apply f_may; [left; split; [left; reflexivity|reflexivity]|].
  destruct x as [tx bx]. cbn [top bot] in *. apply (step_top _ _ _ normalize).
  - eapply ends_weak; [apply (sum_ends fails half is_sub tx (Some p)); auto|]. intros z H. left. auto.
  - intros r Er. rewrite Et in Er. injection Er as <-. eapply f_weak; [apply reduction_runs; auto|auto|]. intros z H. right. exists t. splits; auto. split; auto.
Qed.
Lemma pow_frac x a : parts x -> canonical a -> exists e, is_the (Z.abs (val a)) e /\ fends (Fm_pow fails half a) (F_pow_assign x a) (left_pow half x e) x.
Proof.
  intros [Cx Cx'] Ca.
  assert (exists e, (if is_negative a then op_neg a else Ok a) = Ok e /\ is_the (Z.abs (val a)) e) as (e & Ee & Ce & Ve).
  { unfold is_negative. rewrite (canonical_neg_eq a Ca). destruct (Z.ltb_spec (val a) 0).
    - destruct (negate_ok a ltac:(auto)) as (e & Ee & Ve & Be & We & Ze & _ & Te). exists e. split; [exact Ee|]. split; [apply Te; auto|lia].
    - exists a. split; [reflexivity|]. split; [exact Ca|lia]. }
  exists e. split; [split; auto|].
  assert (R : fruns (Fm_pow fails half a) x (as_frac (F_pow_assign x a)) (left_pow half x e)); [|exact R].
  assert (L0 : left_pow half x e x) by (left; reflexivity).
  unfold Fm_pow, F_pow_assign. rewrite Ee.
  apply (f_bind _ _ _ _ _ (fun z m => z = x /\ m = Ok e)).
  { intros n. destruct (is_negative a); unfold fmay, fjust; [destruct (fails n); [exact L0|auto]|injection Ee as ->; auto]. }
  intros z m [-> ->]. destruct x as [tx bx]. cbn [top bot] in *.
  apply (step_bot _ _ _ (fun x => fthen (set_top x (pow_assign (top x) (Some e))) normalize)).
  - eapply ends_weak; [apply pow_ends|]. unfold pow_assign. cbn [rd]. intros z [->|(r & Er & H)]; [left; reflexivity|].
    destruct (op_pow_both bx tx e Cx' Cx Ce ltac:(lia)) as [(e' & _ & _ & (b & Eb & _) & (t & Et & _))|(_ & Eb & _)]; rewrite Eb in Er; [|discriminate]. injection Er as <-.
    right. exists t, b. splits; auto.
  - unfold pow_assign. cbn [rd]. intros b Eb.
    destruct (op_pow_both bx tx e Cx' Cx Ce ltac:(lia)) as [(e' & _ & _ & (b' & Eb' & Cb & _) & (t & Et & Ct & _))|(_ & Eb' & _)]; rewrite Eb' in Eb; [|discriminate]. injection Eb as ->.
    cbn [top]. apply (step_top _ _ _ normalize).
    + eapply ends_weak; [apply pow_ends|]. unfold pow_assign. cbn [rd]. intros z H. right. exists t, b. splits; auto. right. left. split; [reflexivity|].
      destruct H as [->|(r & Er & H)]; [left; reflexivity|]. rewrite Et in Er. injection Er as <-. exact H.
    + intros r Er. rewrite Et in Er. injection Er as <-. eapply f_weak; [apply reduction_runs; auto|auto|]. intros z H. right. exists t, b. splits; auto.
Qed.
End Reduce.

(** *** What is left has bins, unless the new numerator or denominator is 0 *)
Lemma division_left_wf x c z : wf x -> Z.abs (val c) <= Z.abs (val x) -> left_by_division x c z -> wf z.
Proof. intros W H [->|[[L _]|(_ & _ & Wz & _)]]; auto; lia. Qed.
Lemma reduction_left_wf t b z : wf t -> wf b -> val t <> 0 -> val b <> 0 -> left_by_reduction t b z -> wf (top z) /\ wf (bot z).
Proof.
  intros Wt Wb Nt Nb (t' & b' & S & H).
  assert (P : wf t' /\ wf b' /\ Z.abs (val t') = Z.abs (val t) /\ Z.abs (val b') = Z.abs (val b)).
  { destruct S as [(-> & -> & _)|(_ & Bt & Bb & -> & ->)]; [splits; auto|]. unfold wf in *. rewrite Bt, Bb. splits; try apply Wt; try apply Wb; lia. }
  destruct P as (Wt' & Wb' & Vt & Vb). destruct H as [->|(c & (Wc & Vc & _) & _ & [[H1 ->]|[[C _] H2]])]; [auto| |].
  - split; auto. apply (division_left_wf t' c); auto. rewrite Vt, Vc. rewrite (Z.abs_eq (Z.gcd _ _)) by apply Z.gcd_nonneg.
    apply Z.divide_pos_le; [lia|]. apply Z.divide_abs_r. apply Z.gcd_divide_l.
  - split; auto. apply (division_left_wf b' c); auto. rewrite Vb, Vc. rewrite (Z.abs_eq (Z.gcd _ _)) by apply Z.gcd_nonneg.
    apply Z.divide_pos_le; [lia|]. apply Z.divide_abs_r. apply Z.gcd_divide_r.
Qed.
Lemma top_bot_left_wf x v w z : parts x -> v <> 0 -> w <> 0 -> left_top_bot half_gnu x v w z -> wf (top z) /\ wf (bot z).
Proof.
  intros [Cx Cx'] Nv Nw (t & b & (Wt & Vt & _) & (Wb & Vb & _) & [[H ->]|[[-> H]|H]]).
  - split; auto. eapply left_by_result_wf; [|exact Wt|exact H]. auto.
  - split; auto. eapply left_by_result_wf; [|exact Wb|exact H]. auto.
  - eapply reduction_left_wf; [exact Wt|exact Wb|lia|lia|exact H].
Qed.
