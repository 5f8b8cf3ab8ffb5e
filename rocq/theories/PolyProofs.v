(** Names, maps, and multiplication of terms. *)
From Coq Require Import Ascii QArith Qpower Sorted List.
From Verif Require Import Base IntModel IntSpec IntBasics IntAddSub FracModel FracSpec FracProofs IOModel
  ElemModel ElemSpec ElemProofs PolyModel PolySpec.
Local Open Scope Z_scope.
Local Open Scope list_scope.

(** *** Names *)
Lemma code_lt c d : (code c <? code d) = true <-> (N_of_ascii c < N_of_ascii d)%N.
Proof. unfold code. lia. Qed.
Lemma code_eq c d : (code c =? code d) = true <-> c = d.
Proof.
  unfold code. split; [|intros ->; lia]. intros H. rewrite <- (ascii_N_embedding c), <- (ascii_N_embedding d). f_equal. lia.
Qed.
Lemma str_lt_spec a b : str_lt a b = true <-> str_before a b.
Proof.
  revert b. induction a as [|c a IH]; intros [|d b]; cbn [str_lt].
  - split; [discriminate|inversion 1].
  - split; [constructor|reflexivity].
  - split; [discriminate|inversion 1].
  - destruct (code c <? code d) eqn:E1.
    { split; [intros _; apply sb_head, code_lt, E1|reflexivity]. }
    destruct (code c =? code d) eqn:E2.
    + apply code_eq in E2. subst d. rewrite IH. split; [apply sb_tail|]. inversion 1; subst; auto. lia.
    + split; [discriminate|]. inversion 1; subst.
      * apply code_lt in H1. congruence.
      * assert (code d =? code d = true) by (apply code_eq; auto). congruence.
Qed.
Lemma str_eq_spec a b : str_eq a b = true <-> a = b.
Proof.
  revert b. induction a as [|c a IH]; intros [|d b]; cbn [str_eq]; try (split; congruence).
  rewrite andb_true_iff, IH, Ascii.eqb_eq. split; [intros [-> ->]; auto|]. intros [= -> ->]; auto.
Qed.
Lemma str_irrefl a : ~ str_before a a.
Proof. induction a as [|c a IH]; inversion 1; subst; auto; lia. Qed.
Lemma str_trans a b c : str_before a b -> str_before b c -> str_before a c.
Proof.
  intros H. revert c. induction H as [x t|x y s t H|x s t H IH]; intros c Hc; inversion Hc; subst.
  - constructor.
  - constructor.
  - apply sb_head. lia.
  - apply sb_head. auto.
  - apply sb_head. auto.
  - apply sb_tail. auto.
Qed.
Lemma str_total a b : str_before a b \/ a = b \/ str_before b a.
Proof.
  revert b. induction a as [|c a IH]; intros [|d b]; auto using str_before.
  destruct (N.lt_trichotomy (N_of_ascii c) (N_of_ascii d)) as [H|[H|H]].
  - left. apply sb_head, H.
  - assert (c = d) as <-. { rewrite <- (ascii_N_embedding c), <- (ascii_N_embedding d). f_equal. auto. }
    destruct (IH b) as [H1|[->|H1]]; auto using str_before.
  - right; right. apply sb_head, H.
Qed.
Lemma str_lt_irrefl a : str_lt a a = false.
Proof. destruct (str_lt a a) eqn:E; auto. apply str_lt_spec, str_irrefl in E. contradiction. Qed.
Lemma str_equiv a b : negb (str_lt a b) && negb (str_lt b a) = true <-> a = b.
Proof.
  rewrite andb_true_iff, !negb_true_iff. split; [|intros ->; rewrite str_lt_irrefl; auto].
  intros [H1 H2]. destruct (str_total a b) as [H|[H|H]]; auto; apply str_lt_spec in H; congruence.
Qed.

(** *** Maps *)
Lemma map_ok_nil : map_ok [].
Proof. split; constructor. Qed.
Lemma map_ok_cons k f m : map_ok ((k, f) :: m) <->
  (fid f = k /\ factor_ok f /\ Forall (str_before k) (map fst m) /\ map_ok m).
Proof.
  unfold map_ok. cbn [map fst]. split.
  - intros [H1 H2]. inversion H1; subst. inversion H2; subst. cbn in *. tauto.
  - intros (H1 & H2 & H3 & H4 & H5). split; constructor; auto.
Qed.
Lemma not_In_before k (l : list chars) : Forall (str_before k) l -> ~ In k l.
Proof. intros H I. rewrite Forall_forall in H. apply (str_irrefl k), H, I. Qed.

Lemma map_find_None m k : map_find m k = None <-> ~ In k (map fst m).
Proof.
  induction m as [|[k' f] m IH]; cbn [map_find map fst In]; [tauto|].
  destruct (negb (str_lt k' k) && negb (str_lt k k')) eqn:E.
  - apply str_equiv in E. subst. split; [discriminate|]. intros H. tauto.
  - assert (k' <> k). { intros H. apply str_equiv in H. congruence. }
    destruct (map_find m k); [|tauto]. split; [discriminate|]. intros N. exfalso.
    assert (~ In k (map fst m)) as N2 by tauto. apply IH in N2. discriminate.
Qed.
Lemma map_find_Some m k i : map_find m k = Some i -> exists f, nth_error m i = Some (k, f).
Proof.
  revert i. induction m as [|[k' f] m IH]; intros i; cbn [map_find]; [discriminate|].
  destruct (negb (str_lt k' k) && negb (str_lt k k')) eqn:E.
  - apply str_equiv in E. subst. intros [= <-]. exists f. reflexivity.
  - destruct (map_find m k); [|discriminate]. intros [= <-]. cbn. auto.
Qed.
Lemma map_find_key m i k f : map_ok m -> nth_error m i = Some (k, f) -> map_find m k = Some i.
Proof.
  revert i. induction m as [|[k' f'] m IH]; intros [|i] Hm; cbn [nth_error map_find]; try discriminate.
  - intros [= -> ->]. replace (negb (str_lt k k) && negb (str_lt k k)) with true by (symmetry; apply str_equiv; auto). reflexivity.
  - intros H. apply map_ok_cons in Hm as (_ & _ & Hb & Hm). rewrite (IH i Hm H).
    destruct (negb (str_lt k' k) && negb (str_lt k k')) eqn:E; [|reflexivity].
    apply str_equiv in E. subst. exfalso. apply (not_In_before _ _ Hb). apply nth_error_In in H. apply (in_map fst) in H. exact H.
Qed.
Lemma map_insert_ok m k f : map_ok m -> fid f = k -> factor_ok f -> ~ In k (map fst m) ->
  map_ok (map_insert m k f) /\ (forall k', In k' (map fst (map_insert m k f)) <-> k' = k \/ In k' (map fst m)) /\
  (forall k', total (map snd (map_insert m k f)) k' = degree f k' + total (map snd m) k').
Proof.
  intros Hm Hk Hf. induction m as [|[k' f'] m IH]; intros N; cbn [map_insert].
  - split; [apply map_ok_cons; splits; auto using map_ok_nil; constructor|]. split; [intros; cbn; intuition|reflexivity].
  - pose proof Hm as Hm0. apply map_ok_cons in Hm as (Hk' & Hf' & Hb & Hm). cbn [map fst In] in N.
    destruct (str_lt k k') eqn:E1.
    + apply str_lt_spec in E1. split; [|split; [intros; cbn; intuition|reflexivity]]. apply map_ok_cons. splits; auto.
      cbn [map fst]. constructor; auto. eapply Forall_impl; [|exact Hb]. intros s Hs. eapply str_trans; eauto.
    + destruct (str_lt k' k) eqn:E2.
      * apply str_lt_spec in E2. destruct (IH Hm ltac:(tauto)) as (H1 & H2 & H3). split; [|split].
        -- apply map_ok_cons. splits; auto. apply Forall_forall. intros s Hs. apply H2 in Hs as [->|Hs]; auto. rewrite Forall_forall in Hb; auto.
        -- intros s. cbn [map fst In]. rewrite H2. tauto.
        -- intros s. cbn [map snd total fold_right]. fold (total (map snd (map_insert m k f)) s) (total (map snd m) s). rewrite H3. lia.
      * exfalso. apply N. left. apply str_equiv. rewrite E1, E2. reflexivity.
Qed.
Lemma map_replace_ok m i k f f' : map_ok m -> nth_error m i = Some (k, f) -> fid f' = k -> factor_ok f' ->
  map_ok (replace m i (k, f')) /\ map fst (replace m i (k, f')) = map fst m /\
  (forall k', total (map snd (replace m i (k, f'))) k' = total (map snd m) k' - degree f k' + degree f' k').
Proof.
  revert i. induction m as [|[k0 f0] m IH]; intros [|i] Hm; cbn [nth_error replace]; try discriminate.
  - intros [= -> ->] Hk Hf. apply map_ok_cons in Hm as (H1 & H2 & H3 & H4). split; [apply map_ok_cons; auto|]. split; [reflexivity|].
    intros s. cbn. lia.
  - intros E Hk Hf. apply map_ok_cons in Hm as (H1 & H2 & H3 & H4). destruct (IH i H4 E Hk Hf) as (A1 & A2 & A3). split; [|split].
    + apply map_ok_cons. rewrite A2. auto.
    + cbn. rewrite A2. reflexivity.
    + intros s. cbn [map snd total fold_right]. fold (total (map snd (replace m i (k, f'))) s) (total (map snd m) s). rewrite A3. lia.
Qed.

(** *** Values *)
Lemma Qpow_nonneg_add (q : Q) n m : 0 <= n -> 0 <= m -> (q ^ (n + m) == q ^ n * q ^ m)%Q.
Proof.
  intros Hn Hm. destruct n as [|n|n]; [rewrite Z.add_0_l, Qmult_1_l; reflexivity| |lia].
  destruct m as [|m|m]; [rewrite Z.add_0_r, Qmult_1_r; reflexivity| |lia].
  apply Qpower.Qpower_plus_positive.
Qed.
Lemma fval_add rho k p q r : val r = val p + val q ->
  ~ (rho k == 0)%Q \/ 0 <= val p -> ~ (rho k == 0)%Q \/ 0 <= val q ->
  (fval rho (mkFactor k r) == fval rho (mkFactor k p) * fval rho (mkFactor k q))%Q.
Proof.
  intros Hv H1 H2. unfold fval. cbn [fid power]. rewrite Hv.
  destruct (Qeq_dec (rho k) 0) as [Z|N].
  - apply Qpow_nonneg_add; tauto.
  - apply Qpower.Qpower_plus, N.
Qed.
Lemma fsval_insert rho m k f : ~ In k (map fst m) -> 
  (fsval rho (map snd (map_insert m k f)) == fsval rho (map snd m) * fval rho f)%Q /\
  (meaningful rho (map snd m) -> meaningful rho [f] -> meaningful rho (map snd (map_insert m k f))).
Proof.
  induction m as [|[k' f'] m IH]; intros N; cbn [map_insert].
  - cbn [map snd fsval fold_right]. split; [ring|auto].
  - cbn [map fst In] in N. destruct (str_lt k k') eqn:E1; [|destruct (str_lt k' k) eqn:E2].
    + cbn. split; [ring|]. intros H1 H2. inversion H2; subst. constructor; auto.
    + destruct IH as [IH1 IH2]; [tauto|]. cbn [map snd fsval fold_right].
      fold (fsval rho (map snd (map_insert m k f))) (fsval rho (map snd m)). split.
      * rewrite IH1. ring.
      * intros H1 H2. inversion H1; subst. constructor; auto. apply IH2; auto.
    + exfalso. apply N. left. apply str_equiv. rewrite E1, E2. reflexivity.
Qed.
Lemma fsval_replace rho (m : fmap) i k f f' v : nth_error m i = Some (k, f) -> (fval rho f' == fval rho f * v)%Q ->
  (fsval rho (map snd (replace m i (k, f'))) == fsval rho (map snd m) * v)%Q.
Proof.
  revert i. induction m as [|[k0 f0] m IH]; intros [|i]; cbn [nth_error replace]; try discriminate.
  - intros [= -> ->] H. cbn. rewrite H. ring.
  - intros E H. cbn [map snd fsval fold_right]. fold (fsval rho (map snd (replace m i (k, f')))) (fsval rho (map snd m)).
    rewrite (IH i E H). ring.
Qed.
Lemma meaningful_nth rho (m : fmap) i k f : nth_error m i = Some (k, f) -> meaningful rho (map snd m) -> ~ (rho (fid f) == 0)%Q \/ 0 <= val (power f).
Proof.
  intros E H. unfold meaningful in H. rewrite Forall_forall in H. apply H. apply nth_error_In in E. apply (in_map snd) in E. exact E.
Qed.
Lemma meaningful_replace rho (m : fmap) i k f' : meaningful rho (map snd m) -> ~ (rho (fid f') == 0)%Q \/ 0 <= val (power f') ->
  meaningful rho (map snd (replace m i (k, f'))).
Proof.
  revert i. induction m as [|[k0 f0] m IH]; intros [|i] H Hf; cbn [replace]; auto; inversion H; subst; constructor; auto. apply IH; auto.
Qed.
Lemma fsval_app rho a b : (fsval rho (a ++ b) == fsval rho a * fsval rho b)%Q.
Proof.
  induction a as [|f a IH]; [symmetry; apply Qmult_1_l|]. cbn [app fsval fold_right].
  fold (fsval rho (a ++ b)) (fsval rho a). rewrite IH. ring.
Qed.

(** *** appendFactor *)
Lemma map_ok_nth m i e : map_ok m -> nth_error m i = Some e -> fid (snd e) = fst e /\ factor_ok (snd e).
Proof. intros [_ H] E. rewrite Forall_forall in H. apply H. eapply nth_error_In; eauto. Qed.
Lemma power_add f x : factor_ok f -> factor_ok x -> exists p,
  add_assign (power f) (Some (power x)) = Ok p /\ canonical p /\ val p = val (power f) + val (power x).
Proof.
  intros Hf Hx. unfold add_assign.
  destruct (addsub_assign_ok false (power f) (Some (power x))) as (r & E & C & V); eauto using canonical_wf, canonical_trimmed.
  { intros y [= <-]. split; auto using canonical_wf, canonical_trimmed. }
Qed.
Definition append_spec (t : Term) (l : list Factor) (t' : Term) : Prop :=
  coeff t' = coeff t /\ map_ok (factors t') /\
  (forall k, exponent t' k = exponent t k + total l k) /\
  (forall k, occurs t' k <-> occurs t k \/ exists f, In f l /\ fid f = k) /\
  (forall rho, meaningful rho (map snd (factors t)) -> meaningful rho l -> meaningful rho (map snd (factors t')) /\
     (fsval rho (map snd (factors t')) == fsval rho (map snd (factors t)) * fsval rho l)%Q).
Lemma append_spec_refl t : map_ok (factors t) -> append_spec t [] t.
Proof.
  intros H. unfold append_spec. splits; auto; intros; cbn; [lia| |split; auto; ring]. split; auto. intros [?|(f & [] & _)]; auto.
Qed.
Lemma append_spec_trans t l t1 l' t2 : append_spec t l t1 -> append_spec t1 l' t2 -> append_spec t (l ++ l') t2.
Proof.
  intros (A1 & A2 & A3 & A4 & A5) (B1 & B2 & B3 & B4 & B5). unfold append_spec. splits; auto; try congruence.
  - intros k. rewrite B3, A3. unfold total. rewrite fold_right_app. fold (total l' k).
    clear. induction l as [|f l IH]; cbn; lia.
  - intros k. rewrite B4, A4. split.
    + intros [[?|(f & I & E)]|(f & I & E)]; auto; right; exists f; rewrite in_app_iff; auto.
    + intros [?|(f & I & E)]; auto. apply in_app_iff in I as [I|I]; [left; right|right]; eauto.
  - intros rho H1 H2. apply Forall_app in H2 as [H2 H3]. destruct (A5 rho H1 H2) as [G1 G2]. destruct (B5 rho G1 H3) as [G3 G4].
    split; auto. rewrite G4, G2, fsval_app. ring.
Qed.
Lemma appendFactor_ok t x : map_ok (factors t) -> factor_ok x ->
  exists t', appendFactor t x false = (t', Ok tt) /\ append_spec t [x] t'.
Proof.
  intros Hm Hx. unfold appendFactor. destruct (map_find (factors t) (fid x)) as [i|] eqn:E.
  - destruct (map_find_Some _ _ _ E) as (f & Hf). unfold get_at. rewrite Hf. cbn [eval fst snd].
    destruct (map_ok_nth _ _ _ Hm Hf) as [Hid Hok]. cbn in Hid, Hok.
    destruct (power_add f x Hok Hx) as (p & Ep & Cp & Vp). rewrite Ep. cbn [eval]. unfold done.
    destruct (map_replace_ok (factors t) i (fid x) f (mkFactor (fid f) p) Hm Hf Hid Cp) as (A1 & A2 & A3).
    eexists. split; [reflexivity|]. unfold append_spec. splits; cbn [coeff factors]; auto.
    + intros k. unfold exponent. cbn [factors]. rewrite A3. unfold degree at 2. cbn [fid power]. cbn [total fold_right].
      unfold degree. rewrite Hid. destruct (list_eq_dec _ _ _); lia.
    + intros k. unfold occurs. cbn [factors]. rewrite A2. split; auto. intros [?|(g & [<-|[]] & <-)]; auto.
      apply nth_error_In in Hf. apply (in_map fst) in Hf. exact Hf.
    + intros rho H1 H2. inversion H2 as [|? ? H3 _]; subst. pose proof (meaningful_nth _ _ _ _ _ Hf H1) as H4.
      rewrite <- Hid in H3. split.
      * apply meaningful_replace; auto. cbn [fid power]. rewrite Vp. destruct H3, H4; auto. right; lia.
      * apply (fsval_replace rho _ i (fid x) f); auto. destruct f as [k p0], x as [k' q]. cbn [fid power] in *. subst k'.
        rewrite (fval_add rho k p0 q p); auto. cbn [app map snd fsval fold_right]. ring.
  - apply map_find_None in E. destruct (map_insert_ok (factors t) (fid x) x Hm eq_refl Hx E) as (A1 & A2 & A3).
    unfold done. eexists. split; [reflexivity|]. unfold append_spec. splits; cbn [coeff factors]; auto.
    + intros k. unfold exponent. cbn [factors]. rewrite A3. cbn. lia.
    + intros k. unfold occurs. cbn [factors]. rewrite A2. split; [intros [->|?]; eauto using in_eq|]. intros [?|(g & [<-|[]] & <-)]; auto.
    + intros rho H1 H2. destruct (fsval_insert rho (factors t) (fid x) x E) as [G1 G2]. split; auto. rewrite G1. cbn [app map snd fsval fold_right]. ring.
Qed.
Lemma appendFactors_ok l : forall t, map_ok (factors t) -> Forall factor_ok l ->
  exists t', appendFactors t l = (t', Ok tt) /\ append_spec t l t'.
Proof.
  induction l as [|x l IH]; intros t Hm Hl; cbn [appendFactors].
  - exists t. split; auto. apply append_spec_refl, Hm.
  - inversion Hl; subst. destruct (appendFactor_ok t x Hm ltac:(auto)) as (t1 & E1 & S1). rewrite E1. cbn [andthen].
    destruct (IH t1 ltac:(apply S1) ltac:(auto)) as (t2 & E2 & S2). exists t2. split; auto.
    apply (append_spec_trans t [x] t1 l t2); auto.
Qed.
Lemma map_ok_factors m : map_ok m -> Forall factor_ok (map snd m).
Proof. intros [_ H]. apply Forall_map. eapply Forall_impl; [|exact H]. intros e [_ He]. exact He. Qed.

(** appending the factor found at position i of the same term *)
Lemma append_same t i e : map_ok (factors t) -> nth_error (factors t) i = Some e ->
  appendFactor t (snd e) true = appendFactor t (snd e) false /\
  exists f', fst (appendFactor t (snd e) true) = mkTerm (coeff t) (replace (factors t) i (fst e, f')).
Proof.
  intros Hm E. destruct e as [k f]. destruct (map_ok_nth _ _ _ Hm E) as [Hid Hok]. cbn [fst snd] in *.
  unfold appendFactor. rewrite Hid, (map_find_key _ _ _ _ Hm E). unfold get_at. rewrite E. cbn [eval snd].
  replace (add_assign (power f) None) with (add_assign (power f) (Some (power f))) by (symmetry; apply addsub_assign_alias).
  split; [reflexivity|]. destruct (power_add f f Hok Hok) as (p & -> & _). cbn [eval done fst]. eauto.
Qed.
Lemma skipn_nth {A} (l : list A) i e : nth_error l i = Some e -> skipn i l = e :: skipn (S i) l.
Proof. revert i. induction l as [|x l IH]; intros [|i]; cbn [nth_error skipn]; try discriminate; [congruence|apply IH]. Qed.
Lemma skipn_replace {A} (l : list A) i x : skipn (S i) (replace l i x) = skipn (S i) l.
Proof. revert i. induction l as [|y l IH]; intros [|i]; cbn [replace]; auto. cbn [skipn]. apply IH. Qed.
Lemma append_own_ok fuel : forall i t, map_ok (factors t) -> (i <= length (factors t))%nat -> (length (factors t) < fuel + i)%nat ->
  exists t', append_own fuel i t = (t', Ok tt) /\ append_spec t (map snd (skipn i (factors t))) t'.
Proof.
  induction fuel as [|fuel IH]; intros i t Hm Hi Hl; cbn [append_own]; [lia|].
  destruct (nth_error (factors t) i) as [e|] eqn:E.
  - assert (i < length (factors t))%nat by (apply nth_error_Some; congruence).
    destruct (append_same t i e Hm E) as [E1 (f' & E2)]. rewrite E1 in *.
    destruct (appendFactor_ok t (snd e) Hm) as (t1 & E3 & S1). { eapply map_ok_nth; eauto. }
    rewrite E3 in *. cbn [andthen fst] in *.
    assert (L : length (factors t1) = length (factors t)) by (rewrite E2; cbn [factors]; apply length_replace).
    destruct (IH (S i) t1) as (t2 & E4 & S2); [apply S1|lia|lia|]. exists t2. split; auto.
    rewrite (skipn_nth _ _ _ E). cbn [map].
    replace (skipn (S i) (factors t)) with (skipn (S i) (factors t1)) by (rewrite E2; cbn [factors]; apply skipn_replace).
    apply (append_spec_trans t [snd e] t1 _ t2); auto.
  - apply nth_error_None in E. rewrite skipn_all2 by lia. cbn. exists t. split; auto. apply append_spec_refl, Hm.
Qed.
