(** The text of a Vec or Mat of integers or fractions determines it. *)
From Coq Require Import Ascii String ZifyBool.
From Verif Require Import Base IntModel IntSpec IntBasics IOModel IOSpec IOProofs FracModel FracSpec FracProofs FracIO
  ElemModel ElemSpec VecModel VecProofs MatModel MatSpec MatPrint DoubleModel Int32Spec MiscModel MiscProofs.
Local Open Scope list_scope.
Local Open Scope nat_scope.

(** *** Texts followed by a separator, texts joined by one *)
Lemma flat_sep_inj (sep : ascii) (l : list (list ascii)) : forall l', Forall (fun t => ~ In sep t) l -> Forall (fun t => ~ In sep t) l' ->
  flat_map (fun t => t ++ [sep]) l = flat_map (fun t => t ++ [sep]) l' -> l = l'.
Proof.
  induction l as [|t l IH]; intros [|t' l'] H H' E; auto; cbn in E.
  - destruct t'; discriminate.
  - destruct t; discriminate.
  - inversion H; inversion H'; subst. rewrite <- !app_assoc in E. cbn in E.
    apply split_at in E as [-> E]; auto. f_equal. auto.
Qed.
Lemma joined_inj (l : list (list ascii)) : forall l', Forall (plain (ascii_of_nat 10)) l -> Forall (plain (ascii_of_nat 10)) l' -> joined l = joined l' -> l = l'.
Proof.
  induction l as [|t l IH]; intros [|t' l'] H H' E; auto.
  - inversion H' as [|? ? [N _]]; subst. destruct l' as [|u l']; cbn in E; destruct t'; try discriminate; contradiction.
  - inversion H as [|? ? [N _]]; subst. destruct l as [|u l]; cbn in E; destruct t; try discriminate; contradiction.
  - inversion H as [|? ? [N C] F]; inversion H' as [|? ? [N' C'] F']; subst.
    destruct l as [|u l], l' as [|u' l'].
    + cbn in E. congruence.
    + exfalso. apply C. cbn in E. rewrite E. apply in_or_app. right. left. auto.
    + exfalso. apply C'. cbn in E. rewrite <- E. apply in_or_app. right. left. auto.
    + change (joined (t :: u :: l)) with (t ++ ascii_of_nat 10 :: joined (u :: l)) in E.
      change (joined (t' :: u' :: l')) with (t' ++ ascii_of_nat 10 :: joined (u' :: l')) in E.
      apply split_at in E as [-> E]; auto. f_equal. apply IH; auto.
Qed.
Lemma row_text_map c t : row_text c t = flat_map (fun s => s ++ [" "%char]) (map t (seq 0 c)).
Proof. unfold row_text. induction (seq 0 c) as [|a l IH]; cbn; [reflexivity|rewrite IH; reflexivity]. Qed.
Lemma map_seq_inj {A} (t t' : nat -> A) c c' : map t (seq 0 c) = map t' (seq 0 c') -> c = c' /\ forall j, j < c -> t j = t' j.
Proof.
  intros E. assert (c = c') as <- by (apply (f_equal (@length A)) in E; rewrite !map_length, !seq_length in E; exact E).
  split; auto. intros j Hj. apply (f_equal (fun l => nth_error l j)) in E.
  rewrite !nth_error_map in E. rewrite (nth_error_nth' _ 0) in E by (rewrite seq_length; lia). rewrite seq_nth in E by lia. cbn in E. congruence.
Qed.
Lemma row_text_inj c t c' t' : (forall j, j < c -> ~ In " "%char (t j)) -> (forall j, j < c' -> ~ In " "%char (t' j)) ->
  row_text c t = row_text c' t' -> c = c' /\ forall j, j < c -> t j = t' j.
Proof.
  intros H H' E. rewrite !row_text_map in E. apply flat_sep_inj in E; [apply map_seq_inj; exact E| |].
  - apply Forall_forall. intros s Hs. apply in_map_iff in Hs as (j & <- & Hj). apply in_seq in Hj. apply H. lia.
  - apply Forall_forall. intros s Hs. apply in_map_iff in Hs as (j & <- & Hj). apply in_seq in Hj. apply H'. lia.
Qed.
Lemma row_text_plain c t : 0 < c -> (forall j, j < c -> ~ In (ascii_of_nat 10) (t j)) -> plain (ascii_of_nat 10) (row_text c t).
Proof.
  intros Hc H. split.
  - destruct c; [lia|]. unfold row_text. cbn. destruct (t 0); discriminate.
  - intros I. unfold row_text in I. apply in_flat_map in I as (j & Hj & I). apply in_seq in Hj.
    apply in_app_or in I as [I|[I|[]]]; [apply (H j); auto; lia|discriminate].
Qed.
Lemma mat_text_inj r c t r' c' t' : 0 < c -> 0 < c' ->
  (forall i j, i < r -> j < c -> ~ In " "%char (t i j) /\ ~ In (ascii_of_nat 10) (t i j)) ->
  (forall i j, i < r' -> j < c' -> ~ In " "%char (t' i j) /\ ~ In (ascii_of_nat 10) (t' i j)) ->
  mat_text r c t = mat_text r' c' t' ->
  r = r' /\ (0 < r -> c = c') /\ forall i j, i < r -> j < c -> t i j = t' i j.
Proof.
  intros Hc Hc' H H' E. unfold mat_text in E. apply joined_inj in E.
  - apply map_seq_inj in E as [<- E].
    assert (P : forall i, i < r -> c = c' /\ forall j, j < c -> t i j = t' i j).
    { intros i Hi. apply row_text_inj; [intros j Hj; apply H; auto|intros j Hj; apply H'; auto|]. apply (E i Hi). }
    split; auto. split; [intros R; apply (P 0 R)|]. intros i j Hi Hj. apply (P i Hi); auto.
  - apply Forall_forall. intros s Hs. apply in_map_iff in Hs as (i & <- & Hi). apply in_seq in Hi.
    apply row_text_plain; auto. intros j Hj. apply H; auto; lia.
  - apply Forall_forall. intros s Hs. apply in_map_iff in Hs as (i & <- & Hi). apply in_seq in Hi.
    apply row_text_plain; auto. intros j Hj. apply H'; auto; lia.
Qed.

Lemma nth_error_eq {A} (l : list A) : forall l', (forall k, nth_error l k = nth_error l' k) -> l = l'.
Proof.
  induction l as [|a l IH]; intros [|b l'] H; auto; try (specialize (H 0); discriminate).
  f_equal; [specialize (H 0); cbn in H; congruence|apply IH; intros k; apply (H (S k))].
Qed.

(** *** Element types whose texts are clear *)
(** [pr] writes, for a value that stands for [a], the text of [a]; different values
    have different texts; no text contains a comma, a space or a newline *)
Definition clear_text {T A} (R : T -> A -> Prop) (pr : ostream -> T -> ostream) : Prop := exists txt : T -> list ascii,
  (forall o x a, R x a -> owidth o = 0%Z -> obuf (pr o x) = obuf o ++ txt x /\ owidth (pr o x) = 0%Z) /\
  (forall x a y b, R x a -> R y b -> txt x = txt y -> x = y) /\
  (forall x a, R x a -> plain ","%char (txt x) /\ ~ In " "%char (txt x) /\ ~ In (ascii_of_nat 10) (txt x)).
Section Clear.
Context {T A} (R : T -> A -> Prop) (pr : ostream -> T -> ostream) (HC : clear_text R pr).
Lemma V_print_inj x y o o' : Forall (fun e => exists a, R e a) x -> Forall (fun e => exists a, R e a) y ->
  V_print pr fresh_out x = Ok o -> V_print pr fresh_out y = Ok o' -> obuf o = obuf o' -> x = y.
Proof.
  destruct HC as (txt & H1 & H2 & H3). intros Hx Hy Ex Ey E. rewrite Forall_forall in Hx, Hy.
  destruct (V_print_ok pr txt fresh_out x) as (p & Ep & _ & Bp); [intros q e He Hq; destruct (Hx e He) as (a & Ha); eapply H1; eauto|reflexivity|].
  destruct (V_print_ok pr txt fresh_out y) as (p' & Ep' & _ & Bp'); [intros q e He Hq; destruct (Hy e He) as (a & Ha); eapply H1; eauto|reflexivity|].
  rewrite Ex in Ep. rewrite Ey in Ep'. injection Ep as <-. injection Ep' as <-. rewrite Bp, Bp' in E. cbn [obuf fresh_out app] in E.
  injection E as E. apply app_inv_tail in E. apply separated_inj in E.
  - clear -H2 Hx Hy E. revert y Hy E. induction x as [|e x IH]; intros [|f y] Hy E; try discriminate; auto. injection E as E1 E2.
    destruct (Hx e (or_introl eq_refl)) as (a & Ha). destruct (Hy f (or_introl eq_refl)) as (b & Hb).
    f_equal; [eapply H2; eauto|]. apply IH; auto; intros; [apply Hx|apply Hy]; right; auto.
  - apply Forall_forall. intros s Hs. apply in_map_iff in Hs as (e & <- & He). destruct (Hx e He) as (a & Ha). apply (H3 _ _ Ha).
  - apply Forall_forall. intros s Hs. apply in_map_iff in Hs as (e & <- & He). destruct (Hy e He) as (a & Ha). apply (H3 _ _ Ha).
Qed.
Lemma M_print_inj (E : ops T) m r c g m' r' c' g' o o' : mat_of R m r c g -> mat_of R m' r' c' g' -> 0 < c -> 0 < c' ->
  M_print E pr fresh_out m = Ok o -> M_print E pr fresh_out m' = Ok o' -> obuf o = obuf o' ->
  r = r' /\ (0 < r -> c = c') /\ data m = data m'.
Proof.
  destruct HC as (txt & H1 & H2 & H3). intros Hm Hm' Hc Hc' P P' Eq.
  set (R' x (s : option T) := s = Some x /\ exists a, R x a).
  set (h (m : Mat T) i j := match entry m i j with Ok x => Some x | _ => None end).
  set (tx (s : option T) := match s with Some x => txt x | None => [] end).
  assert (G : forall m r c g, mat_of R m r c g -> mat_of R' m r c (h m)).
  { clear. intros m r c g (Dr & Dc & L & H). unfold mat_of. splits; auto. intros i j Hi Hj. destruct (H i j Hi Hj) as (x & Ex & Hx).
    exists x. split; auto. split; [|eauto]. unfold h, entry, read, offset. rewrite Dc, Ex. reflexivity. }
  assert (Hp : forall o x s, R' x s -> owidth o = 0%Z -> obuf (pr o x) = obuf o ++ tx s /\ owidth (pr o x) = 0%Z).
  { intros p x s (-> & a & Ha) Hw. cbn. eapply H1; eauto. }
  assert (Hr : forall m r c g, mat_of R m r c g -> forall i j, i < r -> j < c -> exists x a, h m i j = Some x /\ R x a /\ nth_error (data m) (i * c + j) = Some (Some x)).
  { clear. intros m r c g (Dr & Dc & L & H) i j Hi Hj. destruct (H i j Hi Hj) as (x & Ex & Hx).
    exists x, (g i j). splits; auto. unfold h, entry, read, offset. rewrite Dc, Ex. reflexivity. }
  destruct (M_print_ok E R' pr tx Hp fresh_out m r c (h m) (G _ _ _ _ Hm) eq_refl) as (p & Ep & _ & Bp).
  destruct (M_print_ok E R' pr tx Hp fresh_out m' r' c' (h m') (G _ _ _ _ Hm') eq_refl) as (p' & Ep' & _ & Bp').
  rewrite P in Ep. rewrite P' in Ep'. injection Ep as <-. injection Ep' as <-. rewrite Bp, Bp' in Eq. cbn [obuf fresh_out app] in Eq.
  apply mat_text_inj in Eq; auto.
  - destruct Eq as (<- & Ec & Eq). split; auto. split; auto.
    destruct r as [|r].
    + destruct Hm as (_ & _ & L & _), Hm' as (_ & _ & L' & _). cbn in L, L'. destruct (data m), (data m'); auto; discriminate.
    + assert (c = c') as <- by (apply Ec; lia). pose proof Hm as (_ & _ & L & _). pose proof Hm' as (_ & _ & L' & _).
      apply nth_error_eq. intros k. destruct (Nat.lt_ge_cases k (S r * c)) as [K|K].
      * assert (Hd : k = (k / c) * c + k mod c) by (rewrite (Nat.div_mod k c) at 1; lia).
        assert (Hi : k / c < S r) by (apply Nat.div_lt_upper_bound; lia). assert (Hj : k mod c < c) by (apply Nat.mod_upper_bound; lia).
        destruct (Hr _ _ _ _ Hm _ _ Hi Hj) as (x & a & Eh & Ha & Ex). destruct (Hr _ _ _ _ Hm' _ _ Hi Hj) as (x' & a' & Eh' & Ha' & Ex').
        specialize (Eq _ _ Hi Hj). rewrite Eh, Eh' in Eq. cbn in Eq. rewrite Hd, Ex, Ex'. do 2 f_equal. eapply H2; eauto.
      * rewrite !(proj2 (nth_error_None _ _)) by lia. reflexivity.
  - intros i j Hi Hj. destruct (Hr _ _ _ _ Hm _ _ Hi Hj) as (x & a & Eh & Ha & _). rewrite Eh. cbn. apply (H3 _ _ Ha).
  - intros i j Hi Hj. destruct (Hr _ _ _ _ Hm' _ _ Hi Hj) as (x & a & Eh & Ha & _). rewrite Eh. cbn. apply (H3 _ _ Ha).
Qed.
End Clear.

(** *** int, Int and Frac *)
Definition R_int32 (k : Z) (a : Z) : Prop := fits k /\ k = a.
Lemma canonical_text_clear s z : canonical_text s z -> plain ","%char s /\ ~ In " "%char s /\ ~ In (ascii_of_nat 10) s.
Proof.
  intros H. splits.
  - apply (canonical_text_plain ","%char s z); auto; discriminate.
  - apply (canonical_text_plain " "%char s z); auto; discriminate.
  - apply (canonical_text_plain (ascii_of_nat 10) s z); auto; discriminate.
Qed.
Lemma clear_int32 : clear_text R_int32 int32_print.
Proof.
  exists dec_int32. splits.
  - intros [b w f] x a _ Hw. cbn in Hw. subst w. split; reflexivity.
  - intros x a y b [Fx <-] [Fy <-] E. apply (canonical_text_value (dec_int32 x)); [|rewrite E]; apply dec_int32_text; auto.
  - intros x a [Fx _]. eapply canonical_text_clear, dec_int32_text; eauto.
Qed.
Lemma clear_Int : clear_text R_int Int_print.
Proof.
  exists Int_to_string. splits.
  - intros [b w f] x a [Cx _] Hw. cbn in Hw. subst w.
    destruct (Int_print_exact x (mkOut b 0 f) Cx) as (s & Hs & E). rewrite E. cbn [obuf owidth ofill Z.to_nat Nat.sub repeat app]. split; auto. f_equal.
    eapply canonical_text_unique; [exact Hs|apply Int_to_string_ok; auto].
  - intros x a y b [Cx _] [Cy _] E. apply canonical_unique_lemma; auto.
    apply (canonical_text_value (Int_to_string x)); [|rewrite E]; apply Int_to_string_ok; auto.
  - intros x a [Cx _]. eapply canonical_text_clear, Int_to_string_ok; eauto.
Qed.
Lemma clear_Frac : clear_text R_frac Frac_print.
Proof.
  assert (N : forall c s z, canonical_text s z -> digit_of c = None -> c <> "-"%char -> ~ In c s).
  { intros c s z H D M. apply (canonical_text_plain c s z D M H). }
  assert (F : forall f, reduced f -> exists st sb, canonical_text st (val (top f)) /\ canonical_text sb (val (bot f)) /\
     Frac_to_string f = [LPAR] ++ st ++ [SLASH] ++ sb ++ [RPAR]).
  { intros f Rf. destruct (Frac_print_text f [] SPACE Rf) as (st & sb & Ht & Hb & E). exists st, sb. splits; auto.
    unfold Frac_to_string, fresh_out. rewrite E. reflexivity. }
  exists Frac_to_string. splits.
  - intros [b w f] x a [Rx _] Hw. cbn in Hw. subst w. destruct (Frac_print_text x b f Rx) as (st & sb & Ht & Hb & E).
    destruct (F x Rx) as (st' & sb' & Ht' & Hb' & E'). rewrite E, E'. cbn [obuf owidth]. split; auto.
    rewrite (canonical_text_unique _ _ _ Ht Ht'), (canonical_text_unique _ _ _ Hb Hb'). reflexivity.
  - intros x a y b [Rx _] [Ry _] E. destruct (F x Rx) as (st & sb & Ht & Hb & Ex). destruct (F y Ry) as (st' & sb' & Ht' & Hb' & Ey).
    rewrite Ex, Ey in E. cbn [app] in E. injection E as E. apply split_at in E as [<- E].
    + apply app_inv_tail in E. subst sb'. destruct Rx as (Cx & Cx' & _), Ry as (Cy & Cy' & _).
      destruct x as [tx bx], y as [ty by_]. cbn [top bot] in *. f_equal; apply canonical_unique_lemma; auto.
      * apply (canonical_text_value st); auto.
      * apply (canonical_text_value sb); auto.
    + apply (N _ _ _ Ht); [reflexivity|discriminate].
    + apply (N _ _ _ Ht'); [reflexivity|discriminate].
  - intros x a [Rx _]. destruct (F x Rx) as (st & sb & Ht & Hb & Ex). rewrite Ex.
    assert (P : forall c, digit_of c = None -> c <> "-"%char -> c <> LPAR -> c <> SLASH -> c <> RPAR -> ~ In c ([LPAR] ++ st ++ [SLASH] ++ sb ++ [RPAR])).
    { intros c D M N1 N2 N3 I. repeat (apply in_app_or in I as [I|I]); try (destruct I as [I|[]]; congruence).
      - eapply N; [exact Ht|exact D|exact M|exact I].
      - eapply N; [exact Hb|exact D|exact M|exact I]. }
    splits; [split; [discriminate|]| |]; apply P; try reflexivity; discriminate.
Qed.
