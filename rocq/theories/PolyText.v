(** Printed factors, terms and polynomials can be told apart. *)
From Coq Require Import Ascii String QArith List Lia.
From Verif Require Import Base IntModel IntSpec IntBasics FracModel FracSpec FracProofs FracIO IOModel IOSpec IOProofs
  PolyModel PolySpec PolyProofs PolyTerms PolyPoly MiscProofs PolyTextSpec.
From Verif Require PropsInt.
Import ListNotations.
Local Open Scope Z_scope.
Local Open Scope list_scope.

(** *** Texts made of words *)
Definition word (w : list ascii) : Prop := w <> [] /\ ~ In " "%char w.
Definition ending (k : list ascii) : Prop := k = [] \/ exists x, k = " "%char :: x.
Lemma word_split w : forall w' k k', ~ In " "%char w -> ~ In " "%char w' -> ending k -> ending k' -> w ++ k = w' ++ k' -> w = w' /\ k = k'.
Proof.
  induction w as [|c w IH]; intros [|c' w'] k k' H H' K K' E; cbn in *; auto.
  - exfalso. apply H'. left. destruct K as [->|[x ->]]; [discriminate|]. injection E. auto.
  - exfalso. apply H. left. destruct K' as [->|[x ->]]; [discriminate|]. injection E. auto.
  - injection E as -> E. destruct (IH w' k k') as [-> ->]; auto.
Qed.
Definition after (sep : list ascii) (ws : list (list ascii)) : list ascii := flat_map (fun w => sep ++ w) ws.
Lemma join_after sep w ws : join sep (w :: ws) = w ++ after sep ws.
Proof.
  revert w. induction ws as [|v ws IH]; intros w; [cbn; rewrite app_nil_r; reflexivity|].
  change (join sep (w :: v :: ws)) with (w ++ sep ++ join sep (v :: ws)). rewrite IH. cbn [after flat_map]. rewrite <- !app_assoc. reflexivity.
Qed.
Definition sum_next (r : list ascii) : Prop := r = [] \/ exists x, r = plus_sep ++ x.
Lemma after_ending ws r : sum_next r -> ending (after times_sep ws ++ r).
Proof. intros R. destruct ws; cbn; [destruct R as [->|[x ->]]; [left; auto|right; eexists; reflexivity]|right; eexists; reflexivity]. Qed.
Lemma words_inj ws : forall ws' r r', Forall word ws -> Forall word ws' -> sum_next r -> sum_next r' ->
  after times_sep ws ++ r = after times_sep ws' ++ r' -> ws = ws' /\ r = r'.
Proof.
  induction ws as [|w ws IH]; intros [|w' ws'] r r' H H' R R' E; auto.
  - exfalso. cbn in E. destruct R as [->|[x ->]]; discriminate E.
  - exfalso. cbn in E. destruct R' as [->|[x ->]]; discriminate E.
  - inversion H as [|? ? [_ Hw] Hs]; inversion H' as [|? ? [_ Hw'] Hs']; subst. cbn [after flat_map] in E. rewrite <- !app_assoc in E.
    apply app_inv_head in E. apply word_split in E as [-> E]; auto; try (apply after_ending; auto).
    destruct (IH ws' r r') as [-> ->]; auto.
Qed.
Lemma sums_next ps : sum_next (after plus_sep ps).
Proof. destruct ps; [left; auto|right]. cbn [after flat_map]. rewrite <- app_assoc. eexists. reflexivity. Qed.
Definition words (ws : list (list ascii)) : Prop := ws <> [] /\ Forall word ws.
Lemma term_words_inj ws ws' r r' : words ws -> words ws' -> sum_next r -> sum_next r' ->
  join times_sep ws ++ r = join times_sep ws' ++ r' -> ws = ws' /\ r = r'.
Proof.
  intros [N H] [N' H'] R R' E. destruct ws as [|w ws]; [contradiction|]. destruct ws' as [|w' ws']; [contradiction|].
  rewrite !join_after, <- !app_assoc in E. inversion H as [|? ? [_ Hw] Hs]; inversion H' as [|? ? [_ Hw'] Hs']; subst.
  apply word_split in E as [-> E]; auto; try (apply after_ending; auto). apply words_inj in E as [-> ->]; auto.
Qed.
Lemma sum_words_inj ps : forall ps', Forall words ps -> Forall words ps' ->
  after plus_sep (map (join times_sep) ps) = after plus_sep (map (join times_sep) ps') -> ps = ps'.
Proof.
  induction ps as [|p ps IH]; intros [|p' ps'] H H' E; auto; try discriminate E.
  inversion H; inversion H'; subst. cbn [map after flat_map] in E. rewrite <- !app_assoc in E. apply app_inv_head in E.
  apply term_words_inj in E as [-> E]; auto; try apply sums_next. f_equal. apply IH; auto.
Qed.
Lemma join_empty p : words p -> join times_sep p <> [].
Proof. intros [N H]. destruct p as [|w p]; [contradiction|]. inversion H as [|? ? [Hw _] _]; subst. rewrite join_after. destruct w; [contradiction|discriminate]. Qed.
Lemma poly_words_inj ps ps' : Forall words ps -> Forall words ps' ->
  join plus_sep (map (join times_sep) ps) = join plus_sep (map (join times_sep) ps') -> ps = ps'.
Proof.
  intros H H' E. destruct ps as [|p ps], ps' as [|p' ps']; auto.
  - exfalso. inversion H' as [|? ? Hp _]; subst. cbn [map] in E. rewrite join_after in E. apply join_empty in Hp. destruct (join times_sep p'); [auto|discriminate E].
  - exfalso. inversion H as [|? ? Hp _]; subst. cbn [map] in E. rewrite join_after in E. apply join_empty in Hp. destruct (join times_sep p); [auto|discriminate E].
  - inversion H; inversion H'; subst. cbn [map] in E. rewrite !join_after in E. apply term_words_inj in E as [-> E]; auto; try apply sums_next.
    f_equal. apply sum_words_inj; auto.
Qed.

(** *** What the words say *)
Lemma no_blank c s z : digit_of c = None -> c <> "-"%char -> canonical_text s z -> ~ In c s.
Proof. intros H1 H2 H. apply (canonical_text_plain c s z H1 H2 H). Qed.
Lemma written_word f s : clear_name (fid f) -> written f s -> word s.
Proof.
  intros ((c & r & E & _) & B & _) W. inversion W as [H|t H Ht]; subst; split.
  - rewrite E. discriminate.
  - exact B.
  - rewrite E. discriminate.
  - rewrite in_app_iff. intros [I|[I|I]]; [auto|discriminate|]. revert I. apply (no_blank " "%char t _ eq_refl ltac:(discriminate) Ht).
Qed.
Lemma frac_word f s : frac_text f s -> word s.
Proof.
  intros (n & d & Hn & Hd & ->). split; [discriminate|]. cbn [In]. rewrite in_app_iff. cbn [In]. rewrite in_app_iff. cbn [In].
  pose proof (no_blank " "%char n _ eq_refl ltac:(discriminate) Hn). pose proof (no_blank " "%char d _ eq_refl ltac:(discriminate) Hd).
  intros [I|[I|[I|[I|[I|[]]]]]]; try discriminate I; auto.
Qed.
Lemma written_looks f g s : factor_ok f -> factor_ok g -> clear_name (fid f) -> clear_name (fid g) -> written f s -> written g s -> looks_factor f g.
Proof.
  intros Cf Cg (_ & _ & Nf) (_ & _ & Ng) Wf Wg. inversion Wf as [Hf Ef|t Hf Ht Ef]; inversion Wg as [Hg Eg|u Hg Hu Eg]; subst.
  - split; auto.
  - exfalso. apply Nf. rewrite <- Eg. apply in_or_app. right. left. reflexivity.
  - exfalso. apply Ng. rewrite Eg. apply in_or_app. right. left. reflexivity.
  - apply split_at in Eg as [E1 E2]; auto. subst u. split; auto. left. apply canonical_unique_lemma; auto. eapply canonical_text_value; eauto.
Qed.
Lemma looks_written f g s : looks_factor f g -> written f s -> written g s.
Proof.
  intros [E [H|[H1 H2]]] W.
  - inversion W as [Hf Ef|t Hf Ht Ef]; rewrite E; [apply wr_bare|apply wr_pow]; rewrite <- H; auto.
  - inversion W as [Hf Ef|t Hf Ht Ef]; [|contradiction]. rewrite E. apply wr_bare; auto.
Qed.
Lemma frac_text_inj f g s : reduced f -> reduced g -> frac_text f s -> frac_text g s -> f = g.
Proof.
  intros (A & B & _) (A' & B' & _) (n & d & Hn & Hd & ->) (n' & d' & Hn' & Hd' & E). injection E as E.
  apply split_at in E as [-> E]; try (eapply no_blank; [| |eassumption]; [reflexivity|discriminate]).
  apply app_inj_tail in E as [-> _]. destruct f, g. cbn in *. f_equal; apply canonical_unique_lemma; auto; eapply canonical_text_value; eauto.
Qed.

(** the words of a term *)
Inductive term_words (t : Term) : list (list ascii) -> Prop :=
| wo_zero : (Fval (coeff t) == 0)%Q -> term_words t [["0"%char]]
| wo_unit : (Fval (coeff t) == 1)%Q -> factors t = [] -> term_words t [["1"%char]]
| wo_one l : (Fval (coeff t) == 1)%Q -> factors t <> [] -> Forall2 written (map snd (factors t)) l -> term_words t l
| wo_coeff c l : ~ (Fval (coeff t) == 0)%Q -> ~ (Fval (coeff t) == 1)%Q -> frac_text (coeff t) c ->
    Forall2 written (map snd (factors t)) l -> term_words t (c :: l).
Lemma written_words t s : term_written t s -> exists ws, term_words t ws /\ s = join times_sep ws.
Proof. intros W. inversion W; subst; eexists; (split; [econstructor; eassumption|reflexivity]). Qed.
Lemma words_written t ws : term_words t ws -> term_written t (join times_sep ws).
Proof. intros W. inversion W; subst; [apply tw_zero|apply tw_unit|apply tw_one|apply tw_coeff]; auto. Qed.
Lemma all_words t l : clear_term t -> Forall2 written (map snd (factors t)) l -> Forall word l.
Proof.
  unfold clear_term. intros N H. induction H; constructor; inversion N; subst; auto. eapply written_word; eauto.
Qed.
Lemma term_words_ok t ws : clear_term t -> term_words t ws -> words ws.
Proof.
  intros N W. inversion W as [H|H E|l H E F|c l H H' C F]; subst; split; try discriminate.
  - repeat constructor; [discriminate|]. intros [I|[]]; discriminate I.
  - repeat constructor; [discriminate|]. intros [I|[]]; discriminate I.
  - intros ->. inversion F as [E1|]; subst. destruct (factors t); [auto|discriminate].
  - eapply all_words; eauto.
  - constructor; [eapply frac_word; eauto|eapply all_words; eauto].
Qed.
(** the first word: a digit, a parenthesis or a name *)
Lemma written_first f s : clear_name (fid f) -> written f s -> exists c r, s = c :: r /\ digit_of c = None /\ c <> "("%char.
Proof.
  intros ((c & r & E & D & P) & _) W. inversion W; subst; rewrite E; cbn; eauto.
Qed.
Lemma factors_looks l l' : forall ws, Forall factor_ok l -> Forall factor_ok l' -> Forall (fun f => clear_name (fid f)) l -> Forall (fun f => clear_name (fid f)) l' ->
  Forall2 written l ws -> Forall2 written l' ws -> Forall2 looks_factor l l'.
Proof.
  revert l'. induction l as [|f l IH]; intros l' ws O O' N N' W W'.
  - inversion W; subst. inversion W'; subst. constructor.
  - inversion W as [|? s ? ws1 H1 H2]; subst. inversion W' as [|g ? l1 ? H1' H2']; subst.
    inversion O; inversion O'; inversion N; inversion N'; subst. constructor; [eapply written_looks; eauto|eapply IH; eauto].
Qed.
Lemma term_factors_ok t : term_ok t -> Forall factor_ok (map snd (factors t)).
Proof. intros [_ [_ H]]. apply Forall_map. eapply Forall_impl; [|exact H]. intros [k f] [_ K]. exact K. Qed.
Lemma first_written l ws w ws' : Forall (fun f => clear_name (fid f)) l -> Forall2 written l ws -> ws = w :: ws' ->
  exists c r, w = c :: r /\ digit_of c = None /\ c <> "("%char.
Proof. intros N W ->. inversion W; subst. inversion N; subst. eapply written_first; eauto. Qed.
Lemma words_looks t u ws : term_ok t -> term_ok u -> clear_term t -> clear_term u -> term_words t ws -> term_words u ws -> looks_term t u.
Proof.
  intros Ot Ou Nt Nu Wt Wu. pose proof (term_factors_ok t Ot) as Ft. pose proof (term_factors_ok u Ou) as Fu.
  assert (Rt : reduced (coeff t)) by apply Ot. assert (Ru : reduced (coeff u)) by apply Ou.
  assert (Q : (Fval (coeff t) == 1)%Q -> (Fval (coeff u) == 1)%Q -> coeff t = coeff u).
  { intros H1 H2. apply reduced_unique; auto. rewrite H1, H2. reflexivity. }
  assert (X : forall (f : Term) l w l', clear_term f -> Forall2 written (map snd (factors f)) l -> l = w :: l' ->
    (exists k, digit_of k <> None /\ w = [k]) \/ (exists r, w = "("%char :: r) -> False).
  { intros f l w l' Nf W E H. destruct (first_written _ _ _ _ Nf W E) as (c & r & -> & D & P). destruct H as [(k & K & [= -> ->])|(r' & [= -> ->])]; auto. }
  assert (D : forall f c, frac_text f c -> exists r, c = "("%char :: r) by (intros f c (n & d & _ & _ & ->); eauto).
  inversion Wt as [H|H E|l H E F|c l H H' C F]; subst; inversion Wu as [K K1|K E' K1|l' K E' F' K1|c' l' K K' C' F' K1]; subst.
  - left. auto.
  - exfalso. eapply X; [exact Nu|exact F'|reflexivity|]. left. exists "0"%char. split; [discriminate|auto].
  - destruct (D _ _ C') as (r & [=]).
  - right. split; auto. rewrite E, E'. constructor.
  - exfalso. eapply X; [exact Nu|exact F'|reflexivity|]. left. exists "1"%char. split; [discriminate|auto].
  - destruct (D _ _ C') as (r & [=]).
  - exfalso. eapply X; [exact Nt|exact F|reflexivity|]. left. exists "0"%char. split; [discriminate|auto].
  - exfalso. eapply X; [exact Nt|exact F|reflexivity|]. left. exists "1"%char. split; [discriminate|auto].
  - right. split; auto. eapply factors_looks; eauto.
  - exfalso. eapply X; [exact Nt|exact F|reflexivity|]. right. eapply D; eauto.
  - destruct (D _ _ C) as (r & [=]).
  - destruct (D _ _ C) as (r & [=]).
  - exfalso. eapply X; [exact Nu|exact F'|reflexivity|]. right. eapply D; eauto.
  - right. split; [eapply frac_text_inj; eauto|eapply factors_looks; eauto].
Qed.
Lemma looks_factors l l' ws : Forall2 looks_factor l l' -> Forall2 written l ws -> Forall2 written l' ws.
Proof.
  intros H. revert ws. induction H; intros ws W; inversion W; subst; constructor; auto. eapply looks_written; eauto.
Qed.
Lemma looks_empty t u : Forall2 looks_factor (map snd (factors t)) (map snd (factors u)) -> (factors t = [] <-> factors u = []).
Proof. intros H. destruct (factors t), (factors u); inversion H; split; auto; discriminate. Qed.
Lemma looks_words t u s : looks_term t u -> term_written t s -> term_written u s.
Proof.
  intros [[H1 H2]|[E F]] W; inversion W as [H|H N|l H N L|c l H H' C L]; subst.
  - apply tw_zero; auto.
  - exfalso. rewrite H in H1. discriminate H1.
  - exfalso. rewrite H in H1. discriminate H1.
  - contradiction.
  - apply tw_zero. rewrite <- E. auto.
  - apply tw_unit; [rewrite <- E; auto|]. apply (looks_empty t u F). auto.
  - apply tw_one; [rewrite <- E; auto| |eapply looks_factors; eauto]. rewrite <- (looks_empty t u F). auto.
  - apply tw_coeff; [rewrite <- E; auto|rewrite <- E; auto|rewrite <- E; auto|eapply looks_factors; eauto].
Qed.

Lemma term_written_inj t u s : term_ok t -> term_ok u -> clear_term t -> clear_term u -> term_written t s -> term_written u s -> looks_term t u.
Proof.
  intros Ot Ou Nt Nu Wt Wu. apply written_words in Wt as (ws & Wt & ->). apply written_words in Wu as (ws' & Wu & E).
  pose proof (term_words_ok _ _ Nt Wt) as H. pose proof (term_words_ok _ _ Nu Wu) as H'.
  destruct (term_words_inj ws ws' [] []) as [-> _]; auto; try (left; reflexivity); [rewrite !app_nil_r; auto|].
  eapply words_looks; eauto.
Qed.
Lemma poly_words p ss : Forall2 term_written p ss -> exists ps, Forall2 term_words p ps /\ ss = map (join times_sep) ps.
Proof.
  intros H. induction H as [|t s p ss Ht _ (ps & H1 & ->)]; [exists []; auto|].
  apply written_words in Ht as (ws & W & ->). exists (ws :: ps). split; auto.
Qed.
Lemma poly_written_inj p q ss ss' : poly_ok p -> poly_ok q -> Forall clear_term p -> Forall clear_term q ->
  Forall2 term_written p ss -> Forall2 term_written q ss' -> join plus_sep ss = join plus_sep ss' -> looks_poly p q.
Proof.
  intros Op Oq Np Nq Wp Wq E. apply poly_words in Wp as (ps & Wp & ->). apply poly_words in Wq as (ps' & Wq & ->).
  assert (L : forall p ps, Forall clear_term p -> Forall2 term_words p ps -> Forall words ps).
  { clear. intros p ps N W. induction W; constructor; inversion N; subst; auto. eapply term_words_ok; eauto. }
  apply poly_words_inj in E; eauto. subst ps'. clear L.
  revert q Oq Nq Wq. induction Wp as [|t ws p ps Ht Wp IH]; intros q Oq Nq Wq; inversion Wq; subst; constructor.
  - inversion Op; inversion Oq; inversion Np; inversion Nq; subst. eapply words_looks; eauto.
  - inversion Op; inversion Oq; inversion Np; inversion Nq; subst. apply IH; auto.
Qed.
Lemma written_same f s s' : written f s -> written f s' -> s = s'.
Proof.
  intros W W'. inversion W as [H|t H Ht]; inversion W' as [H'|t' H' Ht']; subst; auto; try contradiction.
  f_equal. f_equal. eapply canonical_text_unique; eauto.
Qed.
Lemma written_all l : forall ws ws', Forall2 written l ws -> Forall2 written l ws' -> ws = ws'.
Proof.
  induction l as [|f l IH]; intros ws ws' H H'; inversion H; inversion H'; subst; auto. f_equal; [eapply written_same; eauto|auto].
Qed.
Lemma frac_text_same f s s' : frac_text f s -> frac_text f s' -> s = s'.
Proof.
  intros (n & d & Hn & Hd & ->) (n' & d' & Hn' & Hd' & ->). rewrite (canonical_text_unique _ _ _ Hn Hn'), (canonical_text_unique _ _ _ Hd Hd'). reflexivity.
Qed.
Lemma term_same t s s' : term_written t s -> term_written t s' -> s = s'.
Proof.
  intros W W'. inversion W as [H|H N|l H N L|c l H H' C L]; subst; inversion W' as [K|K M|l' K M L'|c' l' K K' C' L']; subst; auto;
    try contradiction; try (rewrite H in K; discriminate K).
  - f_equal. eapply written_all; eauto.
  - f_equal. f_equal; [eapply frac_text_same; eauto|eapply written_all; eauto].
Qed.
