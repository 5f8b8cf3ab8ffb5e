(** Property theorems about reading and printing Ints. Specification: IOSpec.v
    (which texts denote which integer, canonical texts). *)
From Coq Require Import Ascii String ZifyBool.
From Verif Require Import Base IntModel IntSpec IntBasics IntMul IOModel IOSpec IOProofs.
Local Open Scope list_scope.

Definition str (s : string) : list ascii := list_ascii_of_string s.
Ltac exc := apply canonicalb_spec; vm_compute; reflexivity.

(** ** The specification is meaningful: a text denotes at most one integer and
    every integer has exactly one canonical text. *)
Theorem C03_text_unique : forall s z1 z2, int_text s z1 -> int_text s z2 -> z1 = z2.
Proof. exact int_text_unique. Qed.
Theorem C04_canonical_text_unique : forall s1 s2 z, canonical_text s1 z -> canonical_text s2 z -> s1 = s2.
Proof. exact canonical_text_unique. Qed.

(** ** C03 *)
Theorem C03_from_string : forall s,
  (exists z x, int_text s z /\ Int_of_string s = Ok x /\ canonical x /\ val x = z) \/
  ((forall z, ~ int_text s z) /\ Int_of_string s = Throw InvalidArgument).
Proof.
  intros s. destruct (int_prefix_dec s) as [H|(p & t & z & -> & Hp & Ht)].
  - right. assert (H' : forall z, ~ int_text s z) by (intros z Hz; apply (H s [] z); auto; rewrite app_nil_r; auto).
    split; auto. apply Int_of_string_bad; auto.
  - destruct t as [|c t].
    + left. rewrite app_nil_r. destruct (Int_of_string_ok p z Hp) as (x & H1 & H2 & H3). exists z, x. auto.
    + right. assert (H' : forall z, ~ int_text (p ++ c :: t) z).
      { intros z' Hz. apply (int_text_app p (c :: t) z z'); auto. discriminate. }
      split; auto. apply Int_of_string_bad; auto.
Qed.
Example C03_ex : Int_of_string (str "-0012345678901234567890") = Ok (mkInt [234567890; 345678901; 12] true) /\
  Int_of_string (str "12a") = Throw InvalidArgument /\ Int_of_string (str "12:") = Throw InvalidArgument /\
  Int_of_string (str "1/2") = Throw InvalidArgument /\ Int_of_string (str "") = Throw InvalidArgument /\
  Int_of_string (str "-") = Throw InvalidArgument /\ Int_of_string (str "+1") = Throw InvalidArgument /\
  Int_of_string (str "-000") = Ok (mkInt [0] false) /\ Int_of_string (str " 1") = Throw InvalidArgument.
Proof. vm_compute. auto 10. Qed.
Example C03_ex_text : int_text (str "-0012") (-12).
Proof.
  apply (it_neg (str "0012") 12).
  change (numeral ((["0"; "0"; "1"] ++ ["2"])%char) (10 * 1 + 2)). apply numeral_snoc; [|reflexivity].
  change (numeral ((["0"; "0"] ++ ["1"])%char) (10 * 0 + 1)). apply numeral_snoc; [|reflexivity].
  change (numeral ((["0"] ++ ["0"])%char) (10 * 0 + 0)). apply numeral_snoc; [|reflexivity]. constructor. reflexivity.
Qed.
Print Assumptions C03_from_string.

(** ** C04 *)
Theorem C04_print : forall x b f, canonical x ->
  exists s f', canonical_text s (val x) /\ Int_print (mkOut b 0 f) x = mkOut (b ++ s) 0 f'.
Proof.
  intros x b f Hx. destruct (Int_print_text x b f) as (s & H1 & H2); auto.
  - intros Hz. destruct Hx as (_ & _ & Hn). destruct (negative x); auto. exfalso; apply Hn; auto.
  - eexists s, _. split; eauto.
Qed.
(** Redundant zero bins are not printed either. *)
Theorem C04_print_any : forall x, wf x -> (val x = 0 -> negative x = false) ->
  canonical_text (Int_to_string x) (val x).
Proof.
  intros x Hx Hz. destruct (Int_print_text x [] SPACE) as (s & H1 & H2); auto.
  unfold Int_to_string, fresh_out. rewrite H2. exact H1.
Qed.
(** The one exception: a negative zero prints as "-0". *)
Theorem C04_print_negative_zero : forall n, Int_to_string (mkInt (0 :: repeat 0 n) true) = str "-0".
Proof.
  intros n. unfold Int_to_string, Int_print. cbn [negative bins].
  destruct (skip_zero_bins_ok (rev (0 :: repeat 0 n))) as (m & E & [H|(b & r & H & Hb)]).
  - apply Forall_rev. constructor; [split; lia|apply Forall_repeat0].
  - rewrite H. reflexivity.
  - exfalso. rewrite H in E. apply (f_equal (@List.rev Z)) in E. rewrite rev_involutive in E.
    assert (Hi : In b (0 :: repeat 0 n)).
    { rewrite E. rewrite <- in_rev. apply in_or_app. right. left. auto. }
    destruct Hi as [Hi|Hi]; [congruence|]. apply repeat_spec in Hi. congruence.
Qed.
Example C04_ex : Int_to_string (mkInt [7; 0; 123456789; 42] true) = str "-42123456789000000000000000007"
  /\ canonical (mkInt [7; 0; 123456789; 42] true).
Proof. split; [vm_compute; reflexivity|exc]. Qed.
Print Assumptions C04_print.
Print Assumptions C04_print_any.

(** ** C05 *)
Theorem C05_print_parse : forall x, canonical x -> Int_of_string (Int_to_string x) = Ok x.
Proof.
  intros x Hx. pose proof (Int_to_string_ok x Hx) as H. apply canonical_text_int in H.
  destruct (Int_of_string_ok _ _ H) as (y & H1 & H2 & H3). rewrite H1. f_equal. apply canonical_unique_lemma; auto.
Qed.
Theorem C05_parse_print : forall s z x, int_text s z -> Int_of_string s = Ok x ->
  canonical_text (Int_to_string x) z /\ (canonical_text s z -> Int_to_string x = s).
Proof.
  intros s z x Hs Hx. destruct (Int_of_string_ok s z Hs) as (y & H1 & H2 & H3).
  rewrite Hx in H1. injection H1 as <-. subst z.
  pose proof (Int_to_string_ok x H2). split; auto. intros Hc. eapply canonical_text_unique; eauto.
Qed.
Theorem C05_print_injective : forall x y, canonical x -> canonical y -> Int_to_string x = Int_to_string y -> x = y.
Proof.
  intros x y Hx Hy E. pose proof (C05_print_parse x Hx) as H1. rewrite E, C05_print_parse in H1 by auto. congruence.
Qed.
Example C05_ex : Int_of_string (str "00120") = Ok (mkInt [120] false) /\ Int_to_string (mkInt [120] false) = str "120".
Proof. vm_compute. auto. Qed.
(** Leading zero bins are not printed. *)
Example C05_ex_zero_bins : Int_to_string (mkInt [7; 0; 5; 0; 0] true) = str "-5000000000000000007" /\ Int_to_string (mkInt [0; 0] false) = str "0".
Proof. vm_compute. auto. Qed.
Print Assumptions C05_print_parse.
Print Assumptions C05_parse_print.

(** ** C06 *)
Theorem C06_extract : forall s this, good s = true ->
  (forall p t z, rest s = p ++ t -> int_text p z -> ends_numeral t ->
     exists s' x, Int_read s this = Ok (s', x) /\ canonical x /\ val x = z /\
       rest s' = t /\ back s' = rev p ++ back s /\ failbit s' = false /\ badbit s' = false /\
       (eofbit s' = true <-> t = [])) /\
  (no_int_prefix (rest s) ->
     exists s', Int_read s this = Ok (s', this) /\ rest s' = rest s /\ back s' = back s /\
       failbit s' = true /\ badbit s' = false) /\
  (no_int_prefix (rest s) \/ exists p t z, rest s = p ++ t /\ int_text p z /\ ends_numeral t).
Proof.
  intros s this Hg. splits.
  - intros p t z Hr Hp Ht. destruct (Int_read_ok s p z t this) as (x & H1 & H2 & H3); auto.
    exists (stop_stream t (rev p ++ back s)), x. splits; auto; destruct t; try reflexivity.
    + cbn. tauto.
    + cbn. split; discriminate.
  - intros Hn. rewrite Int_read_fail by auto. eexists. splits; reflexivity.
  - apply int_prefix_dec.
Qed.
Theorem C06_extract_not_good : forall s this, good s = false ->
  exists s', Int_read s this = Ok (s', this) /\ rest s' = rest s /\ failbit s' = true.
Proof. intros s this H. rewrite Int_read_not_good by auto. eexists. splits; reflexivity. Qed.
(** Several integers can be extracted one after the other. *)
Theorem C06_extract_two : forall p1 z1 c p2 z2 this1 this2, int_text p1 z1 -> int_text p2 z2 -> digit_of c = None ->
  exists s1 s2 s3 x y, Int_read (istream_of (p1 ++ c :: p2)) this1 = Ok (s1, x) /\ get s1 = (Some c, s2) /\
    Int_read s2 this2 = Ok (s3, y) /\ val x = z1 /\ val y = z2 /\ fail s3 = false /\ eofbit s3 = true.
Proof.
  intros p1 z1 c p2 z2 this1 this2 H1 H2 Hc.
  destruct (Int_read_ok (istream_of (p1 ++ c :: p2)) p1 z1 (c :: p2) this1) as (x & E1 & _ & V1); auto.
  cbn [stop_stream] in E1.
  destruct (Int_read_ok (gs p2 (c :: rev p1 ++ [])) p2 z2 [] this2) as (y & E2 & _ & V2); auto; [cbn; rewrite app_nil_r; auto|exact I|].
  eexists _, _, _, x, y. splits; try eassumption; reflexivity.
Qed.
Example C06_ex : exists s', Int_read (istream_of (str "-42/7")) (mkInt [5] false) = Ok (s', mkInt [42] true)
  /\ rest s' = str "/7" /\ failbit s' = false.
Proof. eexists. vm_compute. auto. Qed.
Example C06_ex_fail : exists s', Int_read (istream_of (str "-x")) (mkInt [5] false) = Ok (s', mkInt [5] false)
  /\ rest s' = str "-x" /\ failbit s' = true.
Proof. eexists. vm_compute. auto. Qed.
(** a lone minus sign at the end of the text is put back *)
Example C06_ex_end : exists s', Int_read (istream_of (str "-")) (mkInt [5] false) = Ok (s', mkInt [5] false)
  /\ rest s' = str "-" /\ failbit s' = true.
Proof. eexists. vm_compute. auto. Qed.
(** nothing is read from a stream that is at its end or bad, and reading there fails *)
Example C06_ex_state : Int_read (mkIn (str "7") [] true false false) (mkInt [5] false) = Ok (mkIn (str "7") [] true true false, mkInt [5] false) /\
  Int_read (mkIn (str "7") [] false false true) (mkInt [5] false) = Ok (mkIn (str "7") [] false true true, mkInt [5] false) /\
  peek (mkIn (str "7") [] true false false) = (None, mkIn (str "7") [] true true false) /\
  fail (mkIn (str "7") [] false false true) = true /\ fail (mkIn (str "7") [] true false false) = false.
Proof. vm_compute. auto 10. Qed.
Print Assumptions C06_extract.
Print Assumptions C06_extract_not_good.
Print Assumptions C06_extract_two.

(** ** C30 : false of the code *)
(** what inserting a built-in integer with value z does *)
Definition builtin_insert (o : ostream) (z : Z) (o' : ostream) : Prop :=
  exists s, canonical_text s z /\ o' = put o s.
Theorem C30_fill_refuted : exists x, canonical x /\ val x = 10 ^ 9 /\
  (* after printing x, a width-3 field prints 7 as "007" *)
  obuf (put (setw 3 (Int_print fresh_out x)) (str "7")) = str "1000000000007".
Proof. exists (mkInt [0; 1] false). splits; [exc|reflexivity|vm_compute; reflexivity]. Qed.
Theorem C30_width_refuted : exists x, canonical x /\ val x = -7 /\
  (* setw(5) << x prints six characters: only the sign is padded *)
  obuf (Int_print (setw 5 fresh_out) x) = str "    -7".
Proof. exists (mkInt [7] true). splits; [exc|reflexivity|vm_compute; reflexivity]. Qed.
Theorem C30_width_multi_bin_refuted : exists x, canonical x /\ val x = 10 ^ 9 /\
  obuf (Int_print (setw 12 fresh_out) x) = str "           1000000000".
Proof. exists (mkInt [0; 1] false). splits; [exc|reflexivity|vm_compute; reflexivity]. Qed.
(** Missing from this one: negative and multi-bin Ints with a width, multi-bin Ints
    for the fill character; [C30_format_iff] below settles every case. *)
Theorem C30_format_partial : forall x o, canonical x -> 0 <= val x < 10 ^ 9 -> builtin_insert o (val x) (Int_print o x).
Proof.
  intros x o Hx Hv.
  assert (Hn : negative x = false) by (rewrite canonical_neg_eq; auto; lia).
  pose proof (abs_val x (canonical_wf _ Hx)) as Ha.
  destruct (Int_print_gen o x) as [[H0 H]|(d & t & Hd & Ht & Hval & [(-> & Hs & H)|(Hne & Hs & H)])]; auto.
  - rewrite Hn in H. exists [ZERO]. split; auto. replace (val x) with 0 by lia. constructor.
  - rewrite Hn in H. exists (dec_int32 d). split; auto.
    destruct (dec_int32_ok d) as (D1 & D2 & D3 & D4 & D5 & _); [lia|].
    destruct D5 as (c & ds & Ed & Hc); [lia|]. 
    replace (val x) with (nv 0 (dec_int32 d)).
    + rewrite Ed. apply ct_pos; auto. rewrite <- Ed. apply numeral_iff; auto.
    + rewrite D2. unfold p10, nv in Hval. cbn in Hval. lia.
  - lia.
Qed.
Theorem C30_fill_exact_partial : forall x b f, canonical x ->
  exists s, canonical_text s (val x) /\
    Int_print (mkOut b 0 f) x = mkOut (b ++ s) 0 (if Z.abs (val x) <? 10 ^ 9 then f else "0"%char).
Proof.
  intros x b f Hx. apply Int_print_text; auto.
  intros Hz. destruct Hx as (_ & _ & Hn). destruct (negative x); auto. exfalso; apply Hn; auto.
Qed.
(** Every Int, width and fill: the padding is computed from the sign alone, or from the
    leading bin, which holds the first one to nine digits. *)
Definition padded_part (s : list ascii) (z : Z) : nat := if z <? 0 then 1 else (length s - 1) mod 9 + 1.
Theorem C30_format_exact_partial : forall x o, canonical x -> exists s, canonical_text s (val x) /\
  Int_print o x = mkOut (obuf o ++ repeat (ofill o) (Z.to_nat (owidth o) - padded_part s (val x)) ++ s) 0 (if Z.abs (val x) <? 10 ^ 9 then ofill o else "0"%char).
Proof. exact Int_print_exact. Qed.
(** so it does what inserting a built-in integer does exactly when the width is no
    more than that part or there is nothing else, and the fill character survives *)
Theorem C30_format_iff : forall x o, canonical x -> 0 <= owidth o ->
  (builtin_insert o (val x) (Int_print o x) <->
   (owidth o <= 1 \/ 0 <= val x < 10 ^ 9 \/ 10 ^ 9 <= val x /\ forall s, canonical_text s (val x) -> owidth o <= (Z.of_nat (length s) - 1) mod 9 + 1) /\
   (Z.abs (val x) < 10 ^ 9 \/ ofill o = "0"%char)).
Proof. exact Int_print_builtin_iff. Qed.
Example C30_ex : obuf (Int_print (setw 5 (setfill "*"%char fresh_out)) (mkInt [42] false)) = str "***42".
Proof. vm_compute. auto. Qed.
Example C30_ex_exact :
  (* -1234567890: the sign is padded to four columns, and fill becomes 0 *)
  Int_print (setw 4 (setfill "*"%char fresh_out)) (mkInt [234567890; 1] true) = mkOut (str "***-1234567890") 0 "0" /\
  (* 12345678901: the leading bin 12 is padded to four columns *)
  Int_print (setw 4 (setfill "*"%char fresh_out)) (mkInt [345678901; 12] false) = mkOut (str "**12345678901") 0 "0" /\
  (* width 2 fits the leading bin, and fill was 0 : as a built-in integer *)
  builtin_insert (setw 2 (setfill "0"%char fresh_out)) 12345678901 (Int_print (setw 2 (setfill "0"%char fresh_out)) (mkInt [345678901; 12] false)).
Proof.
  splits; [vm_compute; auto|vm_compute; auto|].
  exists (str "12345678901"). split; [|vm_compute; auto].
  exact (Int_to_string_ok (mkInt [345678901; 12] false) ltac:(exc)).
Qed.
Print Assumptions C30_format_exact_partial.
Print Assumptions C30_format_iff.
Print Assumptions C30_fill_refuted.
Print Assumptions C30_format_partial.
Print Assumptions C30_fill_exact_partial.

(** ** C28, printing part: equal Ints print equally, and only those. *)
Theorem C28_eq_iff_same_text : forall x y, canonical x -> canonical y ->
  (op_eq x y = Ok true <-> Int_to_string x = Int_to_string y).
Proof.
  intros x y Hx Hy. rewrite op_eq_spec by auto. split.
  - intros H. f_equal. apply canonical_unique_lemma; auto. injection H. lia.
  - intros H. apply C05_print_injective in H as ->; auto. f_equal. lia.
Qed.
Print Assumptions C28_eq_iff_same_text.
