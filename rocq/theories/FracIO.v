(** Lemmas about Frac text: printing, reading, construction from a string. *)
From Coq Require Import QArith.
From Coq Require Import Ascii String.
From Verif Require Import Base IntModel IntSpec IntBasics IntAddSub IntMul IntDiv IntMod IntScale.
From Verif Require Import IOModel IOSpec IOProofs FracModel FracSpec FracProofs.
From Coq Require Import ZifyBool.
Local Open Scope Z_scope.
Local Open Scope list_scope.

Lemma peek_stop_nil b : peek (stop_stream [] b) = (None, set_fail (stop_stream [] b)).
Proof. reflexivity. Qed.
Lemma peek_stop_cons c t b : peek (stop_stream (c :: t) b) = (Some c, gs (c :: t) b).
Proof. reflexivity. Qed.
Lemma fail_stop t b : fail (stop_stream t b) = false.
Proof. destruct t; reflexivity. Qed.
Lemma clear_stop t b : clear_fail (stop_stream t b) = stop_stream t b.
Proof. destruct t; reflexivity. Qed.
Lemma good_stop c t b : stop_stream (c :: t) b = gs (c :: t) b.
Proof. reflexivity. Qed.

Lemma int_text_cons p z : int_text p z -> exists c p', p = c :: p' /\ (c = MINUS \/ isdigit c = true).
Proof.
  assert (N : forall ds n, numeral ds n -> exists c p', ds = c :: p' /\ isdigit c = true).
  { intros ds n H. apply numeral_iff in H as (H1 & H2 & _). destruct ds as [|c ds]; [congruence|].
    inversion H2; subst. eauto. }
  intros H. inversion H as [ds n Hn|ds n Hn]; subst.
  - destruct (N _ _ Hn) as (c & p' & E & D). eauto.
  - exists MINUS, ds. auto.
Qed.

Lemma back_gs r b : back (gs r b) = b.
Proof. reflexivity. Qed.

(** The part of Frac::read between the parenthesis and the normalisation. *)
Definition read_body (s : istream) (this : Frac) (parens : bool) : istream * fst_res :=
    match Int_read s (top this) with
    | Ok (s, t) =>
        let f := mkFrac t (bot this) in
        let step : istream * bool * fst_res :=
          if negb (fail s) then
            let '(c, s) := peek s in
            if is_char c SLASH then
              let s := snd (get s) in
              match Int_read s (bot f) with
              | Ok (s, b) => (s, negb (fail s), (mkFrac (top f) b, Ok tt))
              | m => (s, false, fail_with f m)
              end
            else (s, true, set_bot f (set_value 1))
          else ((if parens then unget s else s), false, (f, Ok tt)) in
        let '(s, success, p) := step in
        let '(s, close) := (if success && parens then let '(c, s) := peek s in (s, is_char c RPAR) else (s, false)) in
        let s := if close then snd (get s) else s in
        let s := if success then clear_fail s else s in
        (s, fthen p normalize)
    | m => (s, fail_with this m)
    end.
Lemma Frac_read_body s this : good s = true ->
  Frac_read s this =
    let parens := is_char (fst (peek s)) LPAR in
    read_body (if parens then snd (get (snd (peek s))) else snd (peek s)) this parens.
Proof.
  intros G. unfold Frac_read, sentry. rewrite G. cbn [negb].
  destruct (peek s) as [c s']. reflexivity.
Qed.

Definition one : Int := mkInt [1] false.
Lemma set_value_1 : set_value 1 = Ok one.
Proof. reflexivity. Qed.

(** Success of the body: the stream stops after it (and after a closing
    parenthesis when one is expected and present). *)
Lemma read_body_ok p t n d b this parens : frac_body p t n d ->
  exists f, canonical (top f) /\ canonical (bot f) /\ val (top f) = n /\ val (bot f) = d /\
  read_body (gs (p ++ t) b) this parens =
   ((if parens then match t with
                    | c :: t' => if Ascii.eqb c RPAR then gs t' (c :: rev p ++ b) else gs t (rev p ++ b)
                    | [] => stop_stream [] (rev p ++ b)
                    end
     else stop_stream t (rev p ++ b)), normalize f).
Proof.
  intros H. destruct H as [p t n Hp Ht Hs|p q t n d Hp Hq Ht].
  - destruct (Int_read_ok (gs (p ++ t) b) p n t (top this)) as (x & E & C & V); auto.
    exists (mkFrac x one). splits; auto; [apply one_canonical|].
    unfold read_body. rewrite E. rewrite !back_gs, fail_stop. cbn [negb bot top].
    destruct t as [|c t].
    + rewrite peek_stop_nil. cbn [is_char]. rewrite set_value_1. cbn [set_bot top].
      destruct parens; cbn [andb]; reflexivity.
    + rewrite peek_stop_cons. cbn [is_char]. cbn [not_next] in Hs.
      destruct (Ascii.eqb c SLASH) eqn:E1; [apply Ascii.eqb_eq in E1; contradiction|].
      rewrite set_value_1. cbn [set_bot top].
      destruct parens; cbn [andb]; [|reflexivity].
      rewrite peek_cons. cbn [is_char]. destruct (Ascii.eqb c RPAR); reflexivity.
  - rewrite <- app_assoc. cbn [app]. change ("/"%char) with SLASH.
    destruct (Int_read_ok (gs (p ++ SLASH :: q ++ t) b) p n (SLASH :: q ++ t) (top this)) as (x & E & C & V); auto; [reflexivity|].
    unfold read_body. rewrite E. rewrite !back_gs, fail_stop. cbn [negb bot top].
    rewrite peek_stop_cons. cbn [is_char]. rewrite Ascii.eqb_refl. rewrite get_cons. cbn [snd].
    destruct (Int_read_ok (gs (q ++ t) (SLASH :: rev p ++ b)) q d t (bot this)) as (y & E' & C' & V'); auto.
    exists (mkFrac x y). splits; auto. rewrite E'. rewrite !back_gs, fail_stop. cbn [negb].
    rewrite rev_app_distr. cbn [rev]. rewrite <- !app_assoc. cbn [app].
    change ("/"%char) with SLASH.
    destruct t as [|c t].
    + destruct parens; cbn [andb]; [rewrite peek_stop_nil|]; reflexivity.
    + destruct parens; cbn [andb]; [|reflexivity].
      rewrite peek_stop_cons. cbn [is_char]. destruct (Ascii.eqb c RPAR); reflexivity.
Qed.

Lemma frac_body_head p t n d : frac_body p t n d -> exists c p', p = c :: p' /\ (c = MINUS \/ isdigit c = true).
Proof.
  intros H. destruct H as [p t n Hp Ht Hs|p q t n d Hp Hq Ht]; destruct (int_text_cons _ _ Hp) as (c & p' & -> & H); cbn; eauto.
Qed.
Lemma head_not_paren c : c = MINUS \/ isdigit c = true -> Ascii.eqb c LPAR = false.
Proof. intros [->|H]; [reflexivity|]. destruct (Ascii.eqb_spec c LPAR); auto. subst. discriminate. Qed.

Lemma Frac_read_ok s this closed p t n d : good s = true -> rest s = p ++ t -> frac_form closed p t n d ->
  exists f, canonical (top f) /\ canonical (bot f) /\ val (top f) = n /\ val (bot f) = d /\
    Frac_read s this = ((if closed then gs t (rev p ++ back s) else stop_stream t (rev p ++ back s)), normalize f).
Proof.
  intros G R F. rewrite Frac_read_body by exact G. apply good_gs in G. rewrite G, R. cbn [back].
  generalize (back s). intros b. clear G R s.
  destruct F as [p t n d Hb|p t n d Hb Hn|p t n d Hb].
  - destruct (frac_body_head _ _ _ _ Hb) as (c & p' & -> & Hc). cbn [app]. rewrite peek_cons. cbn [fst snd is_char].
    rewrite (head_not_paren c Hc). cbv zeta.
    destruct (read_body_ok _ _ _ _ b this false Hb) as (f & H1 & H2 & H3 & H4 & H5).
    exists f. splits; auto.
  - cbn [app]. rewrite peek_cons. cbn [fst snd is_char]. rewrite Ascii.eqb_refl. cbv zeta. rewrite get_cons. cbn [snd].
    destruct (read_body_ok _ _ _ _ ("("%char :: b) this true Hb) as (f & H1 & H2 & H3 & H4 & H5).
    exists f. splits; auto. rewrite H5. cbn [rev]. rewrite <- app_assoc. cbn [app].
    destruct t as [|c t]; [reflexivity|]. cbn [not_next] in Hn.
    destruct (Ascii.eqb_spec c RPAR); [contradiction|]. reflexivity.
  - cbn [app]. rewrite peek_cons. cbn [fst snd is_char]. rewrite Ascii.eqb_refl. cbv zeta. rewrite get_cons. cbn [snd].
    destruct (read_body_ok _ _ _ _ ("("%char :: b) this true Hb) as (f & H1 & H2 & H3 & H4 & H5).
    exists f. splits; auto. rewrite <- app_assoc. cbn [app]. rewrite H5. cbn [rev]. rewrite rev_app_distr. cbn [rev app].
    rewrite <- app_assoc. reflexivity.
Qed.

(** The next characters as seen by a reader that first looks for '('. *)
Definition LP (parens : bool) : chars := if parens then [LPAR] else [].
Lemma Frac_read_pre s this parens r : good s = true -> rest s = LP parens ++ r ->
  (parens = false -> not_next LPAR r) ->
  Frac_read s this = read_body (if parens then gs r (LPAR :: back s) else stop_stream r (back s)) this parens.
Proof.
  intros G R N. rewrite Frac_read_body by exact G. apply good_gs in G. rewrite G, R, back_gs.
  generalize (back s). intros b. clear G R s.
  destruct parens; cbn [LP app].
  - rewrite peek_cons. cbn [fst snd is_char]. rewrite Ascii.eqb_refl. cbv zeta. rewrite get_cons. reflexivity.
  - specialize (N eq_refl). destruct r as [|c r]; [reflexivity|]. rewrite peek_cons. cbn [fst snd is_char].
    cbn [not_next] in N. destruct (Ascii.eqb_spec c LPAR); [contradiction|]. reflexivity.
Qed.

(** No integer after the optional parenthesis: nothing is stored, the failbit is
    set, and the fraction is normalised all the same. *)
Lemma Frac_read_no_int s this parens r : good s = true -> rest s = LP parens ++ r ->
  (parens = false -> not_next LPAR r) -> no_int_prefix r ->
  Frac_read s this = (mkIn r (LP parens ++ back s) (match r with [] => negb parens | _ => false end) true false, normalize this).
Proof.
  intros G R N P. rewrite (Frac_read_pre s this parens r G R N). unfold read_body.
  assert (E : Int_read (if parens then gs r (LPAR :: back s) else stop_stream r (back s)) (top this) =
    Ok (mkIn r (LP parens ++ back s) (match r with [] => true | _ => false end) true false, top this)).
  { destruct parens; [apply Int_read_fail; auto|].
    destruct r; [rewrite Int_read_not_good by reflexivity; reflexivity|]. rewrite good_stop. apply Int_read_fail; auto. }
  rewrite E. destruct this as [tt0 bb0]. cbn [fail failbit badbit orb negb top bot].
  destruct parens, r; reflexivity.
Qed.
(** An integer and a slash not followed by an integer: the numerator has been
    replaced, the denominator has not. *)
Lemma Frac_read_no_den s this parens p r n : good s = true -> rest s = LP parens ++ p ++ SLASH :: r ->
  int_text p n -> no_int_prefix r ->
  exists x, canonical x /\ val x = n /\
  Frac_read s this = (mkIn r (SLASH :: rev p ++ LP parens ++ back s) (match r with [] => true | _ => false end) true false,
                      normalize (mkFrac x (bot this))).
Proof.
  intros G R Hp P. destruct (int_text_cons _ _ Hp) as (c & p' & Ep & Hc).
  rewrite (Frac_read_pre s this parens (p ++ SLASH :: r) G R).
  2: { intros _. subst p. cbn. intros ->. apply head_not_paren in Hc. discriminate. }
  assert (Es : (if parens then gs (p ++ SLASH :: r) (LPAR :: back s) else stop_stream (p ++ SLASH :: r) (back s)) =
    gs (p ++ SLASH :: r) (LP parens ++ back s)) by (subst p; destruct parens; reflexivity).
  rewrite Es. clear Es. generalize (LP parens ++ back s). intros b.
  destruct (Int_read_ok (gs (p ++ SLASH :: r) b) p n (SLASH :: r) (top this)) as (x & E & C & V); auto; [reflexivity|].
  exists x. splits; auto. unfold read_body. rewrite E, back_gs, fail_stop. cbn [negb].
  rewrite peek_stop_cons. cbn [is_char]. rewrite Ascii.eqb_refl, get_cons. cbn [snd bot top].
  rewrite Int_read_fail by auto. cbn [negb fail failbit badbit orb andb rest back]. reflexivity.
Qed.
Lemma Frac_read_not_good s this : good s = false -> Frac_read s this = (set_fail s, (this, Ok tt)).
Proof. intros G. unfold Frac_read, sentry. rewrite G. reflexivity. Qed.

(** The three cases are exhaustive. *)
Lemma frac_text_cases r : 
  (exists closed p t n d, r = p ++ t /\ frac_form closed p t n d) \/
  (exists parens r', r = LP parens ++ r' /\ (parens = false -> not_next LPAR r') /\ no_int_prefix r') \/
  (exists parens p r' n, r = LP parens ++ p ++ SLASH :: r' /\ int_text p n /\ no_int_prefix r').
Proof.
  assert (G : forall r' , no_int_prefix r' \/ (exists p t n d, r' = p ++ t /\ frac_body p t n d) \/
     (exists p t n, r' = p ++ SLASH :: t /\ int_text p n /\ no_int_prefix t)).
  { intros r'. destruct (int_prefix_dec r') as [H|(p & t & z & E & Hp & Ht)]; [auto|right].
    destruct t as [|c t].
    - left. exists p, [], z, 1. split; auto. constructor; auto.
    - destruct (Ascii.ascii_dec c SLASH) as [->|Nc].
      + destruct (int_prefix_dec t) as [H|(q & t' & d & E' & Hq & Ht')].
        * right. exists p, t, z. auto.
        * left. exists (p ++ SLASH :: q), t', z, d. split; [subst; rewrite <- app_assoc; reflexivity|].
          apply fb_frac; auto.
      + left. exists p, (c :: t), z, 1. split; auto. constructor; auto. }
  assert (D : (exists r', r = LPAR :: r') \/ not_next LPAR r).
  { destruct r as [|c r']; [right; exact I|]. destruct (Ascii.ascii_dec c LPAR) as [->|Nc]; [left; eauto|right; exact Nc]. }
  destruct D as [[r' ->]|N].
  - destruct (G r') as [H|[(p & t & n & d & E & H)|(p & t & n & E & H1 & H2)]].
    + right; left. exists true, r'. splits; auto. discriminate.
    + left. destruct t as [|c t].
      * exists false, (LPAR :: p), [], n, d. split; [subst; reflexivity|]. apply ff_open; [auto|exact I].
      * destruct (Ascii.ascii_dec c RPAR) as [->|Nc].
        -- exists true, (LPAR :: p ++ [RPAR]), t, n, d. split; [subst; cbn; rewrite <- app_assoc; reflexivity|].
           apply ff_closed; auto.
        -- exists false, (LPAR :: p), (c :: t), n, d. split; [subst; reflexivity|]. apply ff_open; auto.
    + right; right. exists true, p, t, n. splits; auto. subst. reflexivity.
  - destruct (G r) as [H|[(p & t & n & d & E & H)|(p & t & n & E & H1 & H2)]].
    + right; left. exists false, r. splits; auto.
    + left. exists false, p, t, n, d. split; auto. apply ff_plain; auto.
    + right; right. exists false, p, t, n. splits; auto.
Qed.

(** *** Printing *)
Lemma Frac_print_text f b fl : reduced f -> exists st sb,
  canonical_text st (val (top f)) /\ canonical_text sb (val (bot f)) /\
  Frac_print (mkOut b 0 fl) f =
    mkOut (b ++ [LPAR] ++ st ++ [SLASH] ++ sb ++ [RPAR]) 0
      (if (Z.abs (val (top f)) <? B) && (val (bot f) <? B) then fl else ZERO).
Proof.
  intros (Ct & Cb & Pb & _). unfold Frac_print. rewrite put0.
  destruct (Int_print_text (top f) (b ++ [LPAR]) fl) as (st & H1 & E1); auto.
  { intros V. rewrite (canonical_neg_eq _ Ct). lia. }
  rewrite E1, put0.
  match goal with |- context [Int_print (mkOut ?bb 0 ?ff) (bot f)] =>
    destruct (Int_print_text (bot f) bb ff) as (sb & H2 & E2); auto end.
  { intros V. rewrite (canonical_neg_eq _ Cb). lia. }
  exists st, sb. splits; auto. rewrite E2, put0. f_equal.
  - rewrite <- !app_assoc. reflexivity.
  - rewrite (Z.abs_eq (val (bot f))) by lia. destruct (Z.abs (val (top f)) <? B), (val (bot f) <? B); reflexivity.
Qed.

Lemma print_form st sb n d t : canonical_text st n -> canonical_text sb d ->
  frac_form true ([LPAR] ++ st ++ [SLASH] ++ sb ++ [RPAR]) t n d.
Proof.
  intros H1 H2. cbn [app]. replace (st ++ SLASH :: sb ++ [RPAR]) with ((st ++ SLASH :: sb) ++ [RPAR]) by (rewrite <- app_assoc; reflexivity).
  apply ff_closed. apply fb_frac; auto using canonical_text_int. reflexivity.
Qed.

(** *** Construction from a string *)
Lemma find_slash_none s : find_slash s = None <-> ~ In SLASH s.
Proof.
  induction s as [|c s IH]; cbn [find_slash In]; [intuition congruence|].
  destruct (Ascii.eqb_spec c SLASH).
  - subst. split; [discriminate|tauto].
  - destruct (find_slash s) as [[a b]|].
    + split; [discriminate|]. intros H. exfalso. apply H. right. destruct IH as [_ IH].
      destruct (in_dec Ascii.ascii_dec SLASH s); auto. specialize (IH n0). discriminate.
    + split; auto. intros _ [H|H]; [congruence|]. destruct IH as [IH _]. apply IH; auto.
Qed.
Lemma find_slash_some s l r : find_slash s = Some (l, r) <-> s = l ++ SLASH :: r /\ ~ In SLASH l.
Proof.
  revert l r. induction s as [|c s IH]; intros l r; cbn [find_slash].
  { split; [discriminate|]. intros [H _]. destruct l; discriminate. }
  destruct (Ascii.eqb_spec c SLASH).
  - subst. split.
    + intros [= <- <-]. split; auto.
    + intros [H N]. destruct l as [|c l]; cbn [app] in H; [inversion H; reflexivity|]. injection H as <- H. exfalso. apply N. left. reflexivity.
  - split.
    + destruct (find_slash s) as [[a b]|]; [|discriminate]. intros [= <- <-].
      destruct (proj1 (IH a b) eq_refl) as [E N]. split; [subst; reflexivity|]. cbn [In]. intuition.
    + intros [H N]. destruct l as [|c' l]; cbn [app] in H; [congruence|]. injection H as <- H.
      assert (E : find_slash s = Some (l, r)) by (apply IH; split; auto; intros Hi; apply N; right; exact Hi).
      rewrite E. reflexivity.
Qed.
Lemma int_text_no_slash s z : int_text s z -> ~ In SLASH s.
Proof.
  assert (N : forall ds n, numeral ds n -> ~ In SLASH ds).
  { intros ds n H Hi. apply numeral_iff in H as (_ & H & _). unfold digits in H. rewrite Forall_forall in H.
    specialize (H _ Hi). discriminate. }
  intros H. inversion H as [ds n Hn|ds n Hn]; subst.
  - eapply N; eauto.
  - intros [E|Hi]; [discriminate|]. eapply N; eauto.
Qed.

Lemma Frac_default_ok : Frac_default = Ok (mkFrac (mkInt [0] false) one).
Proof. reflexivity. Qed.
Lemma int1_ok : Int_of_int64 1 0 = Ok one.
Proof. reflexivity. Qed.

Lemma frac_of_parts t b : canonical t -> canonical b -> val b <> 0 ->
  makes (z <- equals_int32 b 0 ;; if z : bool then Throw InvalidArgument else result (normalize (mkFrac t b))) (val t) (val b).
Proof.
  intros Ct Cb Nb. pose proof (Frac_make_makes t b ltac:(auto) Cb) as H. unfold Frac_make in H.
  rewrite equals_int32_0 in * by auto. cbn [bind] in *.
  destruct (Z.eqb_spec (aval b) 0) as [E|E]; [|exact H].
  exfalso. apply Nb. rewrite val_aval. destruct (negative b); lia.
Qed.

Lemma Frac_of_string_makes s n d : frac_string s n d -> d <> 0 -> makes (Frac_of_string s) n d.
Proof.
  intros H Nd. destruct H as [|s n Hs|s q n d Hs Hq].
  - right; right. splits; auto; [apply norm_safe_one|]. exists (mkFrac (mkInt [0] false) one). splits.
    + reflexivity.
    + unfold reduced. cbn [top bot]. splits; [apply canonical_zero|apply one_canonical|reflexivity|reflexivity].
    + reflexivity.
  - assert (Ns : find_slash s = None) by (apply find_slash_none; eapply int_text_no_slash; eauto).
    destruct (int_text_cons _ _ Hs) as (c & p' & Ep & _). unfold Frac_of_string. change "/"%char with SLASH. rewrite Ns. 
    destruct (Int_of_string_ok s n Hs) as (x & E & C & V). rewrite E. cbn [bind]. rewrite int1_ok. cbn [bind bot].
    rewrite Ep. rewrite <- V. apply (frac_of_parts x one); auto. apply one_canonical.
  - assert (Ns : find_slash (s ++ SLASH :: q) = Some (s, q)) by (apply find_slash_some; split; auto; eapply int_text_no_slash; eauto).
    destruct (int_text_cons _ _ Hs) as (c & p' & Ep & _). unfold Frac_of_string. change "/"%char with SLASH. rewrite Ns.
    destruct (Int_of_string_ok s n Hs) as (x & E & C & V). destruct (Int_of_string_ok q d Hq) as (y & E' & C' & V').
    rewrite E. cbn [bind]. rewrite E'. cbn [bind bot]. rewrite Ep. cbn [app].
    rewrite <- V, <- V' in *. apply frac_of_parts; auto.
Qed.
Lemma Frac_of_string_zero s n : frac_string s n 0 -> Frac_of_string s = Throw InvalidArgument.
Proof.
  intros H. inversion H as [| |s' q n' d Hs Hq]; subst.
  assert (Ns : find_slash (s' ++ SLASH :: q) = Some (s', q)) by (apply find_slash_some; split; auto; eapply int_text_no_slash; eauto).
  destruct (int_text_cons _ _ Hs) as (c & p' & Ep & _). unfold Frac_of_string. change "/"%char with SLASH. rewrite Ns.
  destruct (Int_of_string_ok s' n Hs) as (x & E & C & V). destruct (Int_of_string_ok q 0 Hq) as (y & E' & C' & V').
  rewrite E. cbn [bind]. rewrite E'. cbn [bind bot]. rewrite Ep. cbn [app].
  rewrite equals_int32_0 by auto. cbn [bind]. rewrite <- abs_val, V' by auto. reflexivity.
Qed.
Lemma int_text_dec s : (exists z, int_text s z) \/ (forall z, ~ int_text s z).
Proof.
  destruct (int_prefix_dec s) as [H|(p & t & z & E & Hp & Ht)].
  - right. intros z Hz. apply (H s [] z); auto. rewrite app_nil_r. reflexivity.
  - destruct t as [|c t].
    + left. exists z. rewrite E, app_nil_r. exact Hp.
    + right. intros z' Hz. rewrite E in Hz. apply (int_text_app p (c :: t) z z'); auto. discriminate.
Qed.
Lemma Frac_of_string_bad s : (forall n d, ~ frac_string s n d) -> Frac_of_string s = Throw InvalidArgument.
Proof.
  intros H. unfold Frac_of_string. destruct s as [|c s]; [exfalso; apply (H 0 1); constructor|].
  remember (c :: s) as cs eqn:Ecs.
  destruct (find_slash cs) as [[l r]|] eqn:F.
  - apply find_slash_some in F as [E N].
    destruct (int_text_dec l) as [[n Hl]|Hl].
    + destruct (Int_of_string_ok l n Hl) as (x & Ex & _). rewrite Ex. cbn [bind].
      destruct (int_text_dec r) as [[d Hr]|Hr].
      * exfalso. apply (H n d). rewrite E. constructor; auto.
      * rewrite (Int_of_string_bad r Hr). reflexivity.
    + rewrite (Int_of_string_bad l Hl). reflexivity.
  - destruct (int_text_dec cs) as [[n Hl]|Hl].
    + exfalso. apply (H n 1). constructor; auto.
    + rewrite (Int_of_string_bad cs Hl). reflexivity.
Qed.
Lemma frac_string_cases s : (exists n d, frac_string s n d) \/ (forall n d, ~ frac_string s n d).
Proof.
  destruct s as [|c s]; [left; exists 0, 1; constructor|]. remember (c :: s) as cs eqn:Ecs.
  destruct (int_text_dec cs) as [[n Hl]|Hl]; [left; exists n, 1; constructor; auto|].
  destruct (find_slash cs) as [[l r]|] eqn:F.
  - apply find_slash_some in F as [E N].
    destruct (int_text_dec l) as [[n Hl']|Hl'].
    + destruct (int_text_dec r) as [[d Hr]|Hr]; [left; exists n, d; rewrite E; constructor; auto|].
      right. intros n' d' H. inversion H as [E'|s' n0 Hs Es|s' q n0 d0 Hs Hq Es]; subst.
      * discriminate.
      * apply (Hl n'); assumption.
      * assert (G : find_slash (s' ++ SLASH :: q) = Some (s', q)) by (apply find_slash_some; split; auto; eapply int_text_no_slash; eauto).
        assert (G' : find_slash (l ++ SLASH :: r) = Some (l, r)) by (apply find_slash_some; split; auto).
        change "/"%char with SLASH in Es. rewrite <- E, <- Es, G in G'. injection G' as -> ->. eapply Hr; eauto.
    + right. intros n' d' H. inversion H as [E'|s' n0 Hs Es|s' q n0 d0 Hs Hq Es]; subst.
      * discriminate.
      * apply (Hl n'); assumption.
      * assert (G : find_slash (s' ++ SLASH :: q) = Some (s', q)) by (apply find_slash_some; split; auto; eapply int_text_no_slash; eauto).
        assert (G' : find_slash (l ++ SLASH :: r) = Some (l, r)) by (apply find_slash_some; split; auto).
        change "/"%char with SLASH in Es. rewrite <- E, <- Es, G in G'. injection G' as -> ->. eapply Hl'; eauto.
  - right. intros n' d' H. apply find_slash_none in F. inversion H as [E'|s' n0 Hs Es|s' q n0 d0 Hs Hq Es]; subst.
    + discriminate.
    + apply (Hl n'); assumption.
    + apply F. rewrite <- Es. apply in_or_app. right. left. reflexivity.
Qed.
