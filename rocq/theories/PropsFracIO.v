(** Property theorems about the text and double forms of Frac: C37-C39, C41. *)
From Coq Require Import QArith Qabs Qpower Ascii String SpecFloat ZifyBool.
From Verif Require Import Base IntModel IntSpec IntBasics IntAddSub IntMul IntDiv IntMod IOModel IOSpec IOProofs
  FracModel FracSpec FracProofs FracIO FracDouble PropsFrac.
Local Open Scope Z_scope.
Local Open Scope list_scope.
Definition str (s : string) : list ascii := list_ascii_of_string s.

(** ** C37 *)
Theorem C37_string : forall s,
  (exists n d, frac_string s n d /\ d <> 0 /\
     ((norm_safe n d /\ exists f, Frac_of_string s = Ok f /\ reduced f /\ (Fval f == ratio n d)%Q) \/
      (~ norm_safe n d /\ Frac_of_string s = Abort))) \/
  ((forall n d, frac_string s n d -> d = 0) /\ Frac_of_string s = Throw InvalidArgument).
Proof.
  intros s. destruct (frac_string_cases s) as [(n & d & H)|H].
  - destruct (Z.eq_dec d 0) as [->|N].
    + right. pose proof (Frac_of_string_zero s n H) as E. split; auto.
      intros n' d' H'. destruct (Z.eq_dec d' 0) as [|N']; auto. exfalso.
      destruct (Frac_of_string_makes s n' d' H' N') as [[? _]|[(_ & _ & E')|(_ & _ & f & E' & _)]];
        [contradiction|rewrite E in E'; discriminate|rewrite E in E'; discriminate].
    + left. exists n, d. splits; auto.
      destruct (Frac_of_string_makes s n d H N) as [[? _]|[(_ & S & E')|(_ & S & f & E' & R)]]; [contradiction|right; auto|left].
      split; auto. exists f. auto.
  - right. split; [intros n d H'; exfalso; eapply H; eauto|apply Frac_of_string_bad, H].
Qed.
(** The written rational is unique. *)
Theorem C37_string_value : forall s n d n' d', frac_string s n d -> frac_string s n' d' -> d <> 0 -> d' <> 0 ->
  (ratio n d == ratio n' d')%Q \/ Frac_of_string s = Abort.
Proof.
  intros s n d n' d' H H' N N'.
  destruct (Frac_of_string_makes s n d H N) as [[? _]|[(_ & S & E)|(_ & S & f & E & R & V)]]; [contradiction|auto|].
  destruct (Frac_of_string_makes s n' d' H' N') as [[? _]|[(_ & S' & E')|(_ & S' & f' & E' & R' & V')]]; [contradiction|auto|].
  left. rewrite E in E'. injection E' as <-. rewrite <- V. exact V'.
Qed.
Theorem C37_string_small : forall s n d, frac_string s n d -> d <> 0 -> Z.abs n < 10 ^ 18 -> Z.abs d < 10 ^ 18 ->
  exists f, Frac_of_string s = Ok f /\ reduced f /\ (Fval f == ratio n d)%Q.
Proof.
  intros s n d H N L1 L2.
  destruct (Frac_of_string_makes s n d H N) as [[? _]|[(_ & S & E')|(_ & S & f & E' & R)]]; [contradiction| |exists f; auto].
  exfalso. apply S. apply norm_safe_small; auto.
Qed.
Example C37_ex : Frac_of_string (str "-84/126") = Ok (fr (-2) 3) /\ Frac_of_string (str "") = Ok (fr 0 1) /\
  Frac_of_string (str "007") = Ok (fr 7 1) /\ Frac_of_string (str "1/-2") = Ok (fr (-1) 2) /\
  Frac_of_string (str "1/0") = Throw InvalidArgument /\ Frac_of_string (str "1/2/3") = Throw InvalidArgument /\
  Frac_of_string (str " 1/2") = Throw InvalidArgument /\ Frac_of_string (str "/2") = Throw InvalidArgument /\
  Frac_of_string (str "(1/2)") = Throw InvalidArgument.
Proof. vm_compute. splits; reflexivity. Qed.
Print Assumptions C37_string.
Print Assumptions C37_string_value.
Print Assumptions C37_string_small.

(** ** C38 : printing, then reading back *)
(** Missing: fractions whose parts make the normalisation done by read abort. *)
Lemma leaves_same f p : reduced f -> leaves p (val (top f)) (val (bot f)) ->
  (norm_safe (val (top f)) (val (bot f)) /\ p = (f, Ok tt)) \/ (~ norm_safe (val (top f)) (val (bot f)) /\ snd p = Abort).
Proof.
  intros R [(S & g & E & Rg & V)|H]; auto. left. split; auto. rewrite E. f_equal.
  apply reduced_unique; auto.
Qed.
Lemma round_trip f fl t b : reduced f -> exists txt,
  Frac_print (mkOut [] 0 fl) f = mkOut txt 0 (if (Z.abs (val (top f)) <? B) && (val (bot f) <? B) then fl else ZERO) /\
  forall g, fst (Frac_read (gs (txt ++ t) b) g) = gs t (rev txt ++ b) /\
    leaves (snd (Frac_read (gs (txt ++ t) b) g)) (val (top f)) (val (bot f)).
Proof.
  intros R. destruct (Frac_print_text f [] fl R) as (st & sb & Ht & Hb & E).
  eexists. split; [exact E|]. cbn [app]. intros g.
  pose proof (print_form st sb _ _ t Ht Hb) as F.
  destruct (Frac_read_ok (gs (([LPAR] ++ st ++ [SLASH] ++ sb ++ [RPAR]) ++ t) b) g true _ t _ _ eq_refl eq_refl F) as (f' & C1 & C2 & V1 & V2 & E').
  cbn [app] in E'. rewrite E'. cbn [fst snd]. split; [rewrite back_gs; reflexivity|].
  rewrite <- V1, <- V2. apply normalize_leaves; auto. rewrite V2. pose proof (den_pos f R). lia.
Qed.
Theorem C38_round_trip_partial : forall f g fl t b, reduced f -> norm_safe (val (top f)) (val (bot f)) -> exists txt,
  obuf (Frac_print (mkOut [] 0 fl) f) = txt /\
  Frac_read (gs (txt ++ t) b) g = (gs t (rev txt ++ b), (f, Ok tt)).
Proof.
  intros f g fl t b R S. destruct (round_trip f fl t b R) as (txt & E & H). exists txt. rewrite E. split; auto.
  destruct (H g) as [H1 H2]. destruct (leaves_same f _ R H2) as [[_ H3]|[? _]]; [|contradiction].
  rewrite (surjective_pairing (Frac_read _ g)), H1, H3. reflexivity.
Qed.
Theorem C38_round_trip_small : forall f g fl t b, reduced f -> Z.abs (val (top f)) < 10 ^ 18 -> val (bot f) < 10 ^ 18 -> exists txt,
  obuf (Frac_print (mkOut [] 0 fl) f) = txt /\
  Frac_read (gs (txt ++ t) b) g = (gs t (rev txt ++ b), (f, Ok tt)).
Proof.
  intros f g fl t b R L1 L2. pose proof (den_pos f R). apply C38_round_trip_partial; auto. apply norm_safe_small; lia.
Qed.
(** The remaining fractions: reading back always aborts. *)
Theorem C38_round_trip_aborts : forall f g fl t b, reduced f -> ~ norm_safe (val (top f)) (val (bot f)) -> exists txt,
  obuf (Frac_print (mkOut [] 0 fl) f) = txt /\ snd (snd (Frac_read (gs (txt ++ t) b) g)) = Abort.
Proof.
  intros f g fl t b R S. destruct (round_trip f fl t b R) as (txt & E & H). exists txt. rewrite E. split; auto.
  destruct (H g) as [H1 H2]. destruct (leaves_same f _ R H2) as [[? _]|[_ H3]]; [contradiction|exact H3].
Qed.
(** Such fractions can be built: (427935000 * (10^18+138)) / (427935000 * 3). *)
Theorem C38_round_trip_refuted : exists t b f,
  canonical t /\ canonical b /\ Frac_make t b = Ok f /\ reduced f /\
  obuf (Frac_print fresh_out f) = str "(1000000000000000138/3)" /\
  forall g, snd (snd (Frac_read (gs (str "(1000000000000000138/3)") []) g)) = Abort.
Proof.
  exists (mkInt [55030000; 59; 427935000] false), (mkInt [283805000; 1] false), (mkFrac (mkInt [138; 0; 1] false) (mkInt [3] false)).
  splits; try (lazymatch goal with |- _ = _ => vm_compute; reflexivity end); [exc|exc|exr|].
  intros g. assert (R : reduced (mkFrac (mkInt [138; 0; 1] false) (mkInt [3] false))) by exr.
  destruct (round_trip _ " "%char [] [] R) as (txt & E & H). destruct (H g) as [_ H2].
  assert (T : txt = str "(1000000000000000138/3)").
  { apply (f_equal obuf) in E. cbn [obuf] in E. rewrite <- E. vm_compute. reflexivity. }
  rewrite T, app_nil_r in H2. destruct H2 as [(S & _)|[_ H2]]; [exfalso|exact H2].
  destruct S as (S & _). revert S. change (val (top (mkFrac (mkInt [138; 0; 1] false) (mkInt [3] false)))) with 1000000000000000138.
  change (val (bot (mkFrac (mkInt [138; 0; 1] false) (mkInt [3] false)))) with 3. cbn [Z.abs]. intros S.
  assert (C1 : canonical (mkInt [138; 0; 1] false)) by exc. assert (C2 : canonical (mkInt [3] false)) by exc.
  destruct (C31_gcd_returns _ _ C1 C2 S) as (g' & E' & _). vm_compute in E'. discriminate.
Qed.
Example C38_ex : obuf (Frac_print fresh_out (fr (-2) 3)) = str "(-2/3)" /\
  Frac_read (gs (str "(-2/3) 5") []) (fr 9 7) = (gs (str " 5") (rev (str "(-2/3)")), (fr (-2) 3, Ok tt)).
Proof. vm_compute. auto. Qed.
Print Assumptions C38_round_trip_partial.
Print Assumptions C38_round_trip_small.
Print Assumptions C38_round_trip_aborts.
Print Assumptions C38_round_trip_refuted.

(** ** C39 : every possible extraction. *)
(** Extraction recognises the longest [(] INT[/INT] [)], normalises it, and leaves
    the stream not failed; the object is n/d, or the program aborts. *)
Theorem C39_read_value : forall s f closed p t n d, good s = true -> rest s = p ++ t -> frac_form closed p t n d -> d <> 0 ->
  rest (fst (Frac_read s f)) = t /\ back (fst (Frac_read s f)) = rev p ++ back s /\ fail (fst (Frac_read s f)) = false /\
  leaves (snd (Frac_read s f)) n d.
Proof.
  intros s f closed p t n d G Rs F N. destruct (Frac_read_ok s f closed p t n d G Rs F) as (f' & C1 & C2 & V1 & V2 & E).
  rewrite E. cbn [fst snd]. rewrite <- V1, <- V2.
  assert (L : leaves (normalize f') (val (top f')) (val (bot f'))) by (apply normalize_leaves; auto; lia).
  destruct closed; [splits; auto|]. destruct t; splits; auto.
Qed.
(** d = 0 *)
Theorem C39_read_zero_denominator : forall s f closed p t n, good s = true -> rest s = p ++ t -> frac_form closed p t n 0 ->
  rest (fst (Frac_read s f)) = t /\ fail (fst (Frac_read s f)) = false /\
  ((n = 0 /\ snd (snd (Frac_read s f)) = Throw DivideByZero /\ val (top (fst (snd (Frac_read s f)))) = 0 /\ val (bot (fst (snd (Frac_read s f)))) = 0) \/
   (n <> 0 /\ ~ div_safe (Z.abs n) (Z.abs n) /\ snd (snd (Frac_read s f)) = Abort) \/
   (n <> 0 /\ div_safe (Z.abs n) (Z.abs n) /\
      snd (Frac_read s f) = (mkFrac (mkInt [1] (n <? 0)) (mkInt [0] false), Ok tt))).
Proof.
  intros s f closed p t n G Rs F. destruct (Frac_read_ok s f closed p t n 0 G Rs F) as (f' & C1 & C2 & V1 & V2 & E).
  rewrite E. cbn [fst snd]. rewrite <- V1.
  assert (L := normalize_zero f' ltac:(auto) C2 V2).
  splits; [destruct closed, t; reflexivity|destruct closed, t; reflexivity|].
  destruct L as [[L1 L2]|L]; [left|right; exact L]. rewrite L2. cbn [fst snd]. auto.
Qed.
(** No INT at the position: the stream fails; the object keeps its value, or
    the program aborts. *)
Theorem C39_read_no_numerator : forall s f parens r, good s = true -> reduced f ->
  rest s = (if parens : bool then ["("%char] else []) ++ r -> (parens = false -> not_next "(" r) -> no_int_prefix r ->
  failbit (fst (Frac_read s f)) = true /\ rest (fst (Frac_read s f)) = r /\
  ((norm_safe (val (top f)) (val (bot f)) /\ snd (Frac_read s f) = (f, Ok tt)) \/
   (~ norm_safe (val (top f)) (val (bot f)) /\ snd (snd (Frac_read s f)) = Abort)).
Proof.
  intros s f parens r G R Rs N P.
  rewrite (Frac_read_no_int s f parens r); auto. cbn [fst snd]. splits; auto.
  apply leaves_same; auto. pose proof (den_pos f R). destruct (reduced_parts f R). apply normalize_leaves; auto. lia.
Qed.
(** INT/ followed by no INT: the stream fails and the object becomes the new
    numerator over the old denominator. *)
Theorem C39_read_no_denominator : forall s f parens p r n, good s = true -> reduced f ->
  rest s = (if parens : bool then ["("%char] else []) ++ p ++ "/"%char :: r -> int_text p n -> no_int_prefix r ->
  failbit (fst (Frac_read s f)) = true /\ rest (fst (Frac_read s f)) = r /\ leaves (snd (Frac_read s f)) n (val (bot f)).
Proof.
  intros s f parens p r n G R Rs Hp P.
  destruct (Frac_read_no_den s f parens p r n) as (x & Cx & Vx & E); auto.
  rewrite E. cbn [fst snd]. splits; auto. pose proof (den_pos f R). destruct (reduced_parts f R).
  rewrite <- Vx. apply (normalize_leaves (mkFrac x (bot f))); cbn [top bot]; auto. lia.
Qed.
Theorem C39_read_not_good : forall s f, good s = false -> Frac_read s f = (set_fail s, (f, Ok tt)).
Proof. exact Frac_read_not_good. Qed.
(** These cases are all there are. *)
Theorem C39_cases : forall r,
  (exists closed p t n d, r = p ++ t /\ frac_form closed p t n d) \/
  (exists parens r', r = (if parens : bool then ["("%char] else []) ++ r' /\ (parens = false -> not_next "(" r') /\ no_int_prefix r') \/
  (exists parens p r' n, r = (if parens : bool then ["("%char] else []) ++ p ++ "/"%char :: r' /\ int_text p n /\ no_int_prefix r').
Proof. exact frac_text_cases. Qed.
(** Extraction as stated holds when the text has no zero denominator and is not
    cut off after the slash. *)
Theorem C39_read_partial : forall s f, good s = true -> reduced f ->
  (forall closed p t n, rest s = p ++ t -> ~ frac_form closed p t n 0) ->
  (forall parens p r n, rest s = (if parens : bool then ["("%char] else []) ++ p ++ "/"%char :: r -> int_text p n -> ~ no_int_prefix r) ->
  snd (snd (Frac_read s f)) = Abort \/
  (snd (snd (Frac_read s f)) = Ok tt /\ reduced (fst (snd (Frac_read s f))) /\
   (fail (fst (Frac_read s f)) = true -> fst (snd (Frac_read s f)) = f)).
Proof.
  intros s f G R H0 H1. destruct (C39_cases (rest s)) as [(closed & p & t & n & d & E & F)|[(parens & r' & E & N & P)|(parens & p & r' & n & E & Hp & P)]].
  - assert (Nd : d <> 0) by (intros ->; eapply H0; eauto).
    destruct (C39_read_value s f closed p t n d G E F Nd) as (_ & _ & Fl & [(S & g & Eg & Rg & V)|[S A]]); [right|left; auto].
    rewrite Eg. cbn [fst snd]. splits; auto. congruence.
  - destruct (C39_read_no_numerator s f parens r' G R E N P) as (_ & _ & [[S Eg]|[S A]]); [right|left; auto].
    rewrite Eg. cbn [fst snd]. auto.
  - exfalso. eapply H1; eauto.
Qed.
Theorem C39_read_refuted :
  snd (Frac_read (gs (str "1/0") []) (fr 2 3)) = (fr 1 0, Ok tt) /\ fail (fst (Frac_read (gs (str "1/0") []) (fr 2 3))) = false /\
  snd (Frac_read (gs (str "0/0") []) (fr 2 3)) = (fr 0 0, Throw DivideByZero) /\
  snd (Frac_read (gs (str "5/x") []) (fr 2 3)) = (fr 5 3, Ok tt) /\ failbit (fst (Frac_read (gs (str "5/x") []) (fr 2 3))) = true.
Proof. vm_compute. splits; reflexivity. Qed.
Example C39_ex : snd (Frac_read (gs (str "(6/-4") []) (fr 2 3)) = (fr (-3) 2, Ok tt) /\
  snd (Frac_read (gs (str "(x") []) (fr 2 3)) = (fr 2 3, Ok tt) /\ rest (fst (Frac_read (gs (str "(x") []) (fr 2 3))) = str "x" /\
  snd (Frac_read (gs (str "7 8") []) (fr 2 3)) = (fr 7 1, Ok tt) /\
  eofbit (fst (Frac_read (gs (str "(") []) (fr 2 3))) = false /\ fail (fst (Frac_read (gs (str "(") []) (fr 2 3))) = true.
Proof. vm_compute. splits; reflexivity. Qed.
Print Assumptions C39_read_value.
Print Assumptions C39_read_zero_denominator.
Print Assumptions C39_read_no_numerator.
Print Assumptions C39_read_no_denominator.
Print Assumptions C39_read_not_good.
Print Assumptions C39_cases.
Print Assumptions C39_read_partial.
Print Assumptions C39_read_refuted.

(** ** C41 *)
(** For p >= 1 : the numerator is x * 10^p rounded to nearest, ties to even. *)
Theorem C41_from_double_partial : forall x p, finite x -> 1 <= p ->
  exists n, nearest_even (dval x * inject_Z (10 ^ p)) n /\
   ((norm_safe n (10 ^ p) /\ exists f, from_double x p = Ok f /\ reduced f /\ (Fval f == ratio n (10 ^ p))%Q) \/
    (~ norm_safe n (10 ^ p) /\ from_double x p = Abort)).
Proof.
  intros x p F Hp. destruct (from_double_ok x p F Hp) as (n & H & M). exists n. split; auto.
  assert (0 < 10 ^ p) by (apply Z.pow_pos_nonneg; lia).
  destruct M as [[? _]|[(_ & S & E)|(_ & S & f & E & R)]]; [lia|right; auto|left]. split; auto. exists f. auto.
Qed.
(** The error is at most half a unit of the p-th decimal. *)
Theorem C41_error : forall x p f, finite x -> 1 <= p -> from_double x p = Ok f ->
  reduced f /\ (Qabs (dval x - Fval f) <= ratio 1 (2 * 10 ^ p))%Q.
Proof.
  intros x p f F Hp E. assert (P : 0 < 10 ^ p) by (apply Z.pow_pos_nonneg; lia).
  destruct (C41_from_double_partial x p F Hp) as (n & [H _] & [(_ & f' & E' & R & V)|(_ & E')]); rewrite E in E'; [|discriminate].
  injection E' as <-. split; auto. rewrite V.
  assert (Pq : (0 < inject_Z (10 ^ p))%Q) by (change 0%Q with (inject_Z 0); rewrite <- Zlt_Qlt; exact P).
  assert (Nq : ~ (inject_Z (10 ^ p) == 0)%Q) by (intros X; rewrite X in Pq; discriminate).
  assert (Q1 : (dval x - ratio n (10 ^ p) == (dval x * inject_Z (10 ^ p) - inject_Z n) / inject_Z (10 ^ p))%Q) by (unfold ratio; field; exact Nq).
  rewrite Q1. unfold Qdiv. rewrite Qabs_Qmult, (Qabs_pos (/ inject_Z (10 ^ p))) by (apply Qinv_le_0_compat, Qlt_le_weak; exact Pq).
  assert (Q2 : (ratio 1 (2 * 10 ^ p) == (1 # 2) * / inject_Z (10 ^ p))%Q).
  { unfold ratio. rewrite inject_Z_mult. change (inject_Z 1) with 1%Q. change (inject_Z 2) with (2 # 1)%Q. field. exact Nq. }
  rewrite Q2. apply Qmult_le_compat_r; [exact H|]. apply Qinv_le_0_compat, Qlt_le_weak. exact Pq.
Qed.
Theorem C41_not_finite : forall x p, ~ finite x -> from_double x p = Throw InvalidArgument.
Proof. exact from_double_not_finite. Qed.
(** Up to 17 decimals and magnitudes (after scaling) below 10^18 nothing aborts. *)
Theorem C41_from_double_small : forall x p, finite x -> 1 <= p <= 17 -> (Qabs (dval x) * inject_Z (10 ^ p) <= inject_Z (10 ^ 17))%Q ->
  exists f, from_double x p = Ok f /\ reduced f /\ (Qabs (dval x - Fval f) <= ratio 1 (2 * 10 ^ p))%Q.
Proof.
  intros x p F Hp L. destruct (C41_from_double_partial x p F ltac:(lia)) as (n & [H _] & [(_ & f & E & R & V)|(S & _)]).
  - exists f. split; auto. apply C41_error; auto. lia.
  - exfalso. apply S. assert (P : 0 < 10 ^ p) by (apply Z.pow_pos_nonneg; lia).
    apply norm_safe_small.
    + assert (Pq : (0 <= inject_Z (10 ^ p))%Q) by (change 0%Q with (inject_Z 0); rewrite <- Zle_Qle; lia).
      assert (Q1 : (Qabs (inject_Z n) <= inject_Z (10 ^ 17) + (1 # 2))%Q).
      { replace (inject_Z n) with (inject_Z n) by reflexivity.
        assert (X : (inject_Z n == dval x * inject_Z (10 ^ p) - (dval x * inject_Z (10 ^ p) - inject_Z n))%Q) by ring.
        rewrite X. eapply Qle_trans; [apply Qabs_triangle|]. rewrite Qabs_opp. apply Qplus_le_compat; [|exact H].
        rewrite Qabs_Qmult, (Qabs_pos (inject_Z (10 ^ p))) by exact Pq. exact L. }
      change (Qabs (inject_Z n)) with (inject_Z (Z.abs n)) in Q1. unfold Qle in Q1. cbn in Q1. 
      change (10 ^ 18) with 1000000000000000000. lia.
    + rewrite Z.abs_eq by lia. apply Z.pow_lt_mono_r; lia.
Qed.
(** p = 0 : undefined behaviour for every finite double. *)
Theorem C41_precision_negative : forall x p, p < 0 -> from_double x p = from_double x 6.
Proof. exact from_double_negative. Qed.
Theorem C41_precision_zero : forall x, finite x -> from_double x 0 = UB.
Proof. exact from_double_0. Qed.
(** 0.1, 1000.0 and 2.5 as doubles *)
Definition d_tenth : spec_float := S754_finite false 7205759403792794 (-56).
Definition d_1000 : spec_float := S754_finite false 8796093022208000 (-43).
Definition d_2_5 : spec_float := S754_finite false 5629499534213120 (-51).
Theorem C41_from_double_refuted : from_double d_2_5 0 = UB /\ from_double d_1000 15 = Abort /\ from_double d_1000 14 = Ok (fr 1000 1).
Proof. vm_compute. auto. Qed.
Example C41_ex : from_double d_tenth 6 = Ok (fr 1 10) /\ from_double (S754_finite true 7205759403792794 (-56)) 1 = Ok (fr (-1) 10) /\
  from_double (S754_infinity true) 6 = Throw InvalidArgument /\ from_double S754_nan 0 = Throw InvalidArgument /\ from_double d_tenth (-3) = Ok (fr 1 10) /\
  from_double (S754_finite false 4503599627370497 (-50)) 2 = Ok (fr 4 1) /\
  from_double (S754_finite false 6755399441055744 (-53)) 1 = Ok (fr 4 5).
Proof. vm_compute. splits; reflexivity. Qed.
Print Assumptions C41_from_double_partial.
Print Assumptions C41_error.
Print Assumptions C41_not_finite.
Print Assumptions C41_from_double_small.
Print Assumptions C41_precision_negative.
Print Assumptions C41_precision_zero.
Print Assumptions C41_from_double_refuted.
