(** Proofs about sequences of extractions. *)
From Coq Require Import Ascii.
From Verif Require Import Base CommonSpec IntModel IntSpec IntBasics IOModel IOSpec IOProofs SeqModel.

Lemma read_cases s this : good s = true ->
  (exists p t z x, rest s = p ++ t /\ int_text p z /\ ends_numeral t /\ Int_read s this = Ok (stop_stream t (rev p ++ back s), x) /\ canonical x /\ val x = z) \/
  (no_int_prefix (rest s) /\ exists s', Int_read s this = Ok (s', this) /\ rest s' = rest s /\ failbit s' = true).
Proof.
  intros G. destruct (int_prefix_dec (rest s)) as [N|(p & t & z & Hr & Hp & Ht)].
  - right. split; [exact N|]. rewrite Int_read_fail by auto. eexists. splits; reflexivity.
  - left. destruct (Int_read_ok s p z t this G Hr Hp Ht) as (x & E & C & V). exists p, t, z, x. auto 10.
Qed.
Lemma bad_all l : forall s, good s = false -> exists s', extract_all s l = Ok (s', l) /\ rest s' = rest s /\ (fail s' = true <-> (l <> [] \/ fail s = true)).
Proof.
  induction l as [|x l IH]; intros s G; cbn [extract_all].
  - exists s. splits; auto. split; [auto|intros [H|H]; [congruence|exact H]].
  - rewrite Int_read_not_good by auto. cbn [bind]. destruct (IH (set_fail s)) as (s' & -> & R & F).
    { unfold good. cbn. rewrite orb_true_r. reflexivity. }
    cbn [bind]. exists s'. splits; auto. split; [left; discriminate|]. intros _. apply F. right. reflexivity.
Qed.

Lemma extract_total l : forall s, (good s = true \/ fail s = false) -> exists s' ps ys, extract_all s l = Ok (s', ys ++ skipn (length ys) l) /\
  rest s = concat ps ++ rest s' /\ Forall2 (fun p y => int_text p (val y) /\ canonical y) ps ys /\
  (length ys <= length l)%nat /\ (fail s' = true <-> (length ys < length l)%nat).
Proof.
  induction l as [|x l IH]; intros s G; cbn [extract_all].
  - exists s, [], []. cbn. splits; auto. assert (fail s = false) as ->.
    { destruct G as [G|G]; [|exact G]. apply good_bits in G as (_ & A & B). unfold fail. rewrite A, B. reflexivity. }
    split; [discriminate|lia].
  - destruct (good s) eqn:Gs.
    + destruct (read_cases s x Gs) as [(p & t & z & y & R & P & T & E & C & V)|(N & s' & E & R & F)]; rewrite E; cbn [bind].
      * destruct (IH (stop_stream t (rev p ++ back s))) as (s' & ps & ys & E' & R' & F2 & L & F).
        { destruct t; [right|left]; reflexivity. }
        rewrite E'. cbn [bind]. exists s', (p :: ps), (y :: ys). cbn [concat skipn app length]. splits.
        -- reflexivity.
        -- rewrite R. rewrite <- app_assoc. f_equal. rewrite <- R'. destruct t; reflexivity.
        -- constructor; [split; [subst z; exact P|exact C]|exact F2].
        -- lia.
        -- rewrite F. lia.
      * destruct (bad_all l s') as (s'' & E' & R' & F').
        { unfold good. rewrite F. rewrite orb_true_r. reflexivity. }
        rewrite E'. cbn [bind]. exists s'', [], []. split; [reflexivity|]. split; [cbn; congruence|]. split; [constructor|]. split; [cbn; lia|]. cbn [length]. split; [lia|]. intros _. apply F'. right. unfold fail. rewrite F. reflexivity.
    + destruct (bad_all (x :: l) s Gs) as (s' & E & R & F). cbn [extract_all] in E. rewrite E. exists s', [], []. split; [reflexivity|]. split; [cbn; congruence|]. split; [constructor|]. split; [cbn; lia|]. cbn [length].
      split; [lia|]. intros _. apply F. left. discriminate.
Qed.

(** at most one number per minus sign, and one more if the text starts with a digit *)
Fixpoint minuses (t : chars) : nat := match t with [] => 0 | c :: t => (if Ascii.eqb c MINUS then 1 else 0) + minuses t end.
Definition head_digit (t : chars) : nat := match t with c :: _ => match digit_of c with Some _ => 1 | None => 0 end | [] => 0 end.
Lemma minuses_app a b : minuses (a ++ b) = (minuses a + minuses b)%nat.
Proof. induction a as [|c a IH]; cbn; [reflexivity|rewrite IH; lia]. Qed.
Lemma digits_no_minus ds n : numeral ds n -> minuses ds = 0%nat /\ exists c r, ds = c :: r /\ digit_of c <> None.
Proof.
  induction 1 as [c d H|ds c n d H [IH (c' & r & -> & N)] Hc].
  - split; [|exists c, []; split; [reflexivity|congruence]]. cbn. destruct (Ascii.eqb_spec c MINUS) as [->|]; [discriminate|reflexivity].
  - split; [|exists c', (r ++ [c]); split; [reflexivity|exact N]]. rewrite minuses_app, IH. cbn. destruct (Ascii.eqb_spec c MINUS) as [->|]; [discriminate|reflexivity].
Qed.
Lemma int_text_count p z t : int_text p z -> (1 <= minuses p + head_digit (p ++ t))%nat.
Proof.
  intros [ds n H|ds n H]; destruct (digits_no_minus _ _ H) as (_ & c & r & -> & N).
  - cbn. destruct (digit_of c); [lia|congruence].
  - cbn [minuses]. change (Ascii.eqb "-" MINUS) with true. cbn. lia.
Qed.
Lemma ends_head t : ends_numeral t -> head_digit t = 0%nat.
Proof. destruct t as [|c t]; cbn; [reflexivity|]. intros ->. reflexivity. Qed.
Lemma no_fail_count l : forall s s' ys, (good s = true \/ fail s = false) -> extract_all s l = Ok (s', ys) -> fail s' = false ->
  (length l <= minuses (rest s) + head_digit (rest s))%nat.
Proof.
  induction l as [|x l IH]; intros s s' ys G E F; [cbn; lia|]. cbn [extract_all] in E. destruct (good s) eqn:Gs.
  - destruct (read_cases s x Gs) as [(p & t & z & y & R & P & T & E1 & C & V)|(N & s1 & E1 & R & F1)]; rewrite E1 in E; cbn [bind] in E.
    + destruct (extract_all (stop_stream t (rev p ++ back s)) l) as [[s2 ys2]| | | |] eqn:E2; try discriminate. cbn [bind] in E. injection E as E3 _. subst s2.
      assert (L := fun G => IH _ _ _ G E2 F). assert (Rt : rest (stop_stream t (rev p ++ back s)) = t) by (destruct t; reflexivity). rewrite Rt in L.
      rewrite (ends_head t T) in L. specialize (L ltac:(destruct t; [right|left]; reflexivity)).
      rewrite R, minuses_app. pose proof (int_text_count p z t P). cbn [length]. lia.
    + exfalso. destruct (bad_all l s1) as (s2 & E2 & _ & F2). { unfold good. rewrite F1. rewrite orb_true_r. reflexivity. }
      rewrite E2 in E. cbn [bind] in E. injection E as E3 _. subst s2. assert (fail s' = true); [|congruence]. apply F2. right. unfold fail. rewrite F1. reflexivity.
  - exfalso. destruct (bad_all (x :: l) s Gs) as (s2 & E2 & _ & F2). cbn [extract_all] in E2. rewrite E2 in E. injection E as E3 _. subst s2.
    assert (fail s' = true); [|congruence]. apply F2. left. discriminate.
Qed.
(** the canonical texts *)
Lemma text_minuses x : canonical x -> minuses (Int_to_string x) = (if (val x <? 0)%Z then 1 else 0)%nat /\
  head_digit (Int_to_string x) = (if (val x <? 0)%Z then 0 else 1)%nat /\ Int_to_string x <> [] /\ (val x < 0 -> ends_numeral (Int_to_string x)).
Proof.
  intros C. pose proof (Int_to_string_ok x C) as H. revert H. generalize (Int_to_string x) (val x). intros s z [|c ds n H N|c ds n H N].
  - cbn. splits; auto; [discriminate|lia].
  - destruct (digits_no_minus _ _ H) as (M & c' & r & E & D). injection E as <- <-.
    assert (0 <= n) by (apply numeral_iff in H as (_ & Hd & ->); apply nv_bound, Hd).
    replace (n <? 0) with false by lia. splits; auto; [|discriminate|lia]. cbn. destruct (digit_of c); [reflexivity|congruence].
  - assert (0 < n) by (apply numeral_iff in H as (_ & Hd & ->); pose proof (nv_lead c ds Hd N); pose proof (p10_pos (length ds)); lia).
    destruct (digits_no_minus _ _ H) as (M & _). replace (- n <? 0) with true by lia. split; [change (1 + minuses (c :: ds) = 1)%nat; lia|]. split; [reflexivity|]. split; [discriminate|reflexivity].
Qed.

(** numbers written one after the other *)
Definition adjacent (l : list Int) : chars := flat_map Int_to_string l.
Fixpoint negatives (l : list Int) : nat := match l with [] => 0 | x :: l => (if (val x <? 0)%Z then 1 else 0) + negatives l end.
Lemma adjacent_minuses l : Forall canonical l -> minuses (adjacent l) = negatives l.
Proof. induction 1 as [|x l C _ IH]; [reflexivity|]. cbn. rewrite minuses_app. fold (adjacent l). rewrite IH. destruct (text_minuses x C) as (-> & _). reflexivity. Qed.
Lemma negatives_all l : (negatives l <= length l)%nat /\ (negatives l = length l <-> Forall (fun x => val x < 0) l).
Proof.
  induction l as [|x l [IH1 IH2]]; cbn [negatives length]; [split; [lia|split; auto]|]. split; [destruct (val x <? 0)%Z; lia|]. rewrite Forall_cons_iff, <- IH2.
  destruct (Z.ltb_spec (val x) 0); lia.
Qed.
Lemma adjacent_ends l : Forall canonical l -> Forall (fun x => val x < 0) l -> ends_numeral (adjacent l).
Proof.
  intros C N. destruct l as [|x l]; [exact I|]. inversion C; inversion N; subst. destruct (text_minuses x) as (_ & _ & Ne & E); [assumption|]. specialize (E ltac:(assumption)).
  cbn. destruct (Int_to_string x); [congruence|exact E].
Qed.
Lemma adjacent_ok l : forall s init, Forall canonical l -> Forall (fun x => val x < 0) (tl l) -> length init = length l ->
  good s = true -> rest s = adjacent l -> exists s', extract_all s init = Ok (s', l) /\ fail s' = false /\ rest s' = [].
Proof.
  induction l as [|x l IH]; intros s init C N L G R.
  - destruct init; [|discriminate]. exists s. splits; auto. apply good_bits in G as (_ & A & B). unfold fail. rewrite A, B. reflexivity.
  - destruct init as [|i init]; [discriminate|]. inversion C as [|? ? Cx Cl]; subst. cbn [tl] in N. cbn [extract_all].
    destruct (Int_read_ok s (Int_to_string x) (val x) (adjacent l) i G R (canonical_text_int _ _ (Int_to_string_ok x Cx)) (adjacent_ends l Cl N)) as (y & E & Cy & V).
    rewrite E. cbn [bind]. assert (y = x) as -> by (apply canonical_unique_lemma; auto). destruct l as [|x' l].
    + destruct init; [|discriminate]. cbn [adjacent flat_map stop_stream extract_all bind]. eexists. splits; reflexivity.
    + inversion N as [|? ? Nx Nl]; subst. destruct (IH (stop_stream (adjacent (x' :: l)) (rev (Int_to_string x) ++ back s)) init) as (s' & E' & F & R').
      * exact Cl.
      * exact Nl.
      * injection L as L. exact L.
      * inversion Cl; subst. destruct (text_minuses x') as (_ & _ & Ne & _); [assumption|]. cbn. destruct (Int_to_string x'); [congruence|reflexivity].
      * destruct (adjacent (x' :: l)); reflexivity.
      * rewrite E'. cbn [bind]. exists s'. auto.
Qed.
Lemma adjacent_iff l init : Forall canonical l -> length init = length l ->
  ((exists s', extract_all (istream_of (adjacent l)) init = Ok (s', l) /\ fail s' = false) <-> Forall (fun x => val x < 0) (tl l)).
Proof.
  intros C L. split.
  - intros (s' & E & F). destruct l as [|x l]; [constructor|]. cbn [tl]. apply negatives_all.
    pose proof (no_fail_count init (istream_of (adjacent (x :: l))) s' (x :: l) (or_introl eq_refl) E F) as K. cbn [istream_of rest] in K. rewrite adjacent_minuses in K by exact C. rewrite L in K.
    inversion C as [|? ? Cx Cl]; subst. destruct (text_minuses x Cx) as (_ & D & Ne & _).
    assert (H : head_digit (adjacent (x :: l)) = head_digit (Int_to_string x)) by (cbn; destruct (Int_to_string x); [congruence|reflexivity]).
    rewrite H, D in K. cbn [negatives length] in K. destruct (negatives_all l) as [Q _]. destruct (val x <? 0)%Z; lia.
  - intros N. destruct (adjacent_ok l (istream_of (adjacent l)) init C N L eq_refl eq_refl) as (s' & E & F & _). eauto.
Qed.

(** numbers preceded by white space *)
Lemma skip_space_ok w : forall t b, Forall (fun c => isspace c = true) w -> match t with [] => True | c :: _ => isspace c = false end ->
  skip_space (w ++ t) b = (t, rev w ++ b).
Proof.
  induction w as [|c w IH]; intros t b W T; cbn [app skip_space].
  - destruct t as [|c t]; [reflexivity|]. cbn [skip_space]. rewrite T. reflexivity.
  - inversion W; subst. rewrite H1, IH by assumption. cbn [rev]. rewrite <- app_assoc. reflexivity.
Qed.
Lemma space_not_digit c : isspace c = true -> digit_of c = None.
Proof. destruct c as [[] [] [] [] [] [] [] []]; vm_compute; congruence. Qed.
Lemma text_not_space p z t : int_text p z -> exists c r, p ++ t = c :: r /\ isspace c = false.
Proof.
  intros [ds n H|ds n H].
  - destruct (digits_no_minus _ _ H) as (_ & c & r & -> & N). exists c, (r ++ t). split; [reflexivity|]. destruct (isspace c) eqn:E; [|reflexivity].
    apply space_not_digit in E. congruence.
  - exists "-"%char, (ds ++ t). split; reflexivity.
Qed.
Definition spaced (l : list (chars * Int)) : chars := flat_map (fun p => fst p ++ Int_to_string (snd p)) l.
Definition space (w : chars) : Prop := w <> [] /\ Forall (fun c => isspace c = true) w.
Lemma spaced_ends l : Forall (fun p => space (fst p)) l -> ends_numeral (spaced l).
Proof.
  intros H. destruct l as [|[w x] l]; [exact I|]. inversion H as [|? ? [N F] _]; subst. cbn in *. destruct w as [|c w]; [congruence|].
  inversion F; subst. cbn. apply space_not_digit. assumption.
Qed.
Lemma spaced_ok l : forall s init, Forall (fun p => canonical (snd p)) l ->
  Forall (fun p => Forall (fun c => isspace c = true) (fst p)) l -> Forall (fun p => space (fst p)) (tl l) -> length init = length l ->
  good s = true -> rest s = spaced l -> exists s', extract_ws s init = Ok (s', map snd l) /\ fail s' = false /\ rest s' = [].
Proof.
  induction l as [|[w x] l IH]; intros s init C W N L G R.
  - destruct init; [|discriminate]. exists s. splits; auto. apply good_bits in G as (_ & A & B). unfold fail. rewrite A, B. reflexivity.
  - destruct init as [|i init]; [discriminate|]. inversion C as [|? ? Cx Cl]; inversion W as [|? ? Wx Wl]; subst. cbn [tl fst snd] in *. cbn [extract_ws].
    pose proof (canonical_text_int _ _ (Int_to_string_ok x Cx)) as P.
    destruct (text_not_space _ _ (spaced l) P) as (c & r & Ec & Sc).
    assert (Ew : ws s = gs (Int_to_string x ++ spaced l) (rev w ++ back s)).
    { unfold ws. rewrite R. cbn [spaced flat_map fst snd]. fold (spaced l). rewrite <- app_assoc. rewrite skip_space_ok; [|exact Wx|rewrite Ec; exact Sc].
      rewrite Ec. apply good_bits in G as (-> & -> & ->). reflexivity. }
    rewrite Ew. destruct (Int_read_ok (gs (Int_to_string x ++ spaced l) (rev w ++ back s)) (Int_to_string x) (val x) (spaced l) i eq_refl eq_refl P (spaced_ends l N)) as (y & E & Cy & V).
    rewrite E. cbn [bind]. assert (y = x) as -> by (apply canonical_unique_lemma; auto). destruct l as [|[w' x'] l].
    + destruct init; [|discriminate]. cbn [spaced flat_map stop_stream extract_ws bind map snd]. eexists. splits; reflexivity.
    + inversion N as [|? ? Nx Nl]; subst. cbn [fst] in Nx. destruct Nx as [Nw _].
      destruct (IH (stop_stream (spaced ((w', x') :: l)) (rev (Int_to_string x) ++ back (gs (Int_to_string x ++ spaced ((w', x') :: l)) (rev w ++ back s)))) init) as (s' & E' & F & R').
      * exact Cl.
      * exact Wl.
      * exact Nl.
      * injection L as L. exact L.
      * cbn. destruct w'; [congruence|reflexivity].
      * destruct (spaced ((w', x') :: l)); reflexivity.
      * rewrite E'. cbn [bind]. exists s'. auto.
Qed.
Lemma spaced_all (l : list (chars * Int)) init : Forall (fun p => canonical (snd p)) l ->
  Forall (fun p => Forall (fun c => isspace c = true) (fst p)) l -> Forall (fun p => fst p <> []) (tl l) -> length init = length l ->
  exists s, extract_ws (istream_of (spaced l)) init = Ok (s, map snd l) /\ fail s = false /\ rest s = [].
Proof.
  intros C W N L. apply (spaced_ok l); auto. destruct l as [|p l]; [constructor|]. inversion W; subst. cbn [tl] in *.
  rewrite Forall_forall in *. intros q Hq. split; [apply N, Hq|]. match goal with H : forall x, In x l -> Forall _ _ |- _ => apply H, Hq end.
Qed.
Lemma separated_fails x c r a b : canonical x -> digit_of c = None -> c <> "-"%char -> exists s,
  extract_all (istream_of (Int_to_string x ++ c :: r)) [a; b] = Ok (s, [x; b]) /\ fail s = true /\ rest s = c :: r.
Proof.
  intros C D M. cbn [extract_all].
  destruct (Int_read_ok (istream_of (Int_to_string x ++ c :: r)) (Int_to_string x) (val x) (c :: r) a eq_refl eq_refl (canonical_text_int _ _ (Int_to_string_ok x C)) D) as (y & -> & Cy & V).
  cbn [bind stop_stream]. assert (y = x) as -> by (apply canonical_unique_lemma; auto).
  destruct (read_cases (gs (c :: r) (rev (Int_to_string x) ++ back (istream_of (Int_to_string x ++ c :: r)))) b eq_refl) as [(p & t & z & u & R & P & _)|(_ & s' & -> & R & F)].
  - exfalso. cbn in R. destruct P as [ds n P|ds n P].
    + destruct (digits_no_minus _ _ P) as (_ & d & q & -> & Nd). injection R as <- _. contradiction.
    + injection R as -> _. contradiction.
  - cbn [bind]. exists s'. split; [reflexivity|]. split; [unfold fail; rewrite F; reflexivity|exact R].
Qed.
