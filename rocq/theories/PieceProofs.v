(** Proofs about sequences of insertions (PieceModel.v). *)
From Coq Require Import Ascii String ZifyBool.
From Verif Require Import Base IntModel IntSpec IntBasics IOModel IOSpec IOProofs FlagsModel FlagsSpec FlagsProofs FracModel FracSpec ElemModel ElemSpec VecModel MatModel MatSpec
  PolyModel MiscModel MiscProofs PieceModel PieceSpec.
From Verif Require Import ElemProofs Int32Spec.
From Verif Require VecProofs MatProofs MatPrint.
Local Open Scope list_scope.

Lemma put_all_app o a b : put_all o (a ++ b) = put_all (put_all o a) b.
Proof. apply fold_left_app. Qed.
Lemma ins_all_app fl o a b : ins_all fl o (a ++ b) = ins_all fl (ins_all fl o a) b.
Proof. apply fold_left_app. Qed.

(** *** The operators of the models make these insertions *)
Lemma frac_pieces_ok o f : Frac_print o f = put_all o (frac_pieces f). Proof. reflexivity. Qed.
Section Elements.
Context {T : Type} (pr : ostream -> T -> ostream) (pe : T -> list piece).
Lemma comma_snoc l e : comma_pieces pe (l ++ [e]) = flat_map (fun e => pe e ++ [Txt [","%char; " "%char]]) l ++ pe e.
Proof.
  induction l as [|a l IH]; [reflexivity|]. cbn [flat_map]. rewrite <- !app_assoc, <- IH. destruct l; cbn [app comma_pieces]; reflexivity.
Qed.
Lemma vec_pieces_ok o x : (forall o e, In e x -> pr o e = put_all o (pe e)) -> V_print pr o x = Ok (put_all o (vec_pieces pe x)).
Proof.
  intros H. unfold V_print. destruct x as [|e0 x _] using rev_ind; [reflexivity|].
  rewrite app_length. cbn [length]. replace (length x + 1 - 1)%nat with (length x) by lia.
  assert (L : forall l pre o, x = pre ++ l ->
    for_ (length l) (length pre) (fun i o => eval o (get_at (x ++ [e0]) i) (fun e => done (put (pr o e) [","%char; " "%char]))) o =
    done (put_all o (flat_map (fun e => pe e ++ [Txt [","%char; " "%char]]) l))).
  { induction l as [|e l IH]; intros pre o' Ex; [reflexivity|]. cbn [length for_ flat_map]. unfold get_at at 1.
    rewrite Ex, <- app_assoc, nth_error_app2, Nat.sub_diag by lia. cbn [app nth_error eval]. unfold done at 1. cbn [andthen].
    rewrite H by (rewrite Ex; apply in_or_app; left; apply in_or_app; right; left; reflexivity).
    specialize (IH (pre ++ [e])). rewrite app_length, Nat.add_1_r in IH. rewrite app_comm_cons, app_assoc, <- Ex, IH by (rewrite <- app_assoc; exact Ex).
    rewrite !put_all_app. reflexivity. }
  rewrite (L x [] _ eq_refl). unfold final, done. cbn [snd fst bind]. destruct (Nat.ltb_spec (length x) (length x + 1)); [|lia].
  unfold get_at. rewrite nth_error_app2, Nat.sub_diag by lia. cbn [nth_error bind]. rewrite H by (apply in_or_app; right; left; reflexivity).
  f_equal. unfold vec_pieces. rewrite comma_snoc. change (Txt ["("%char] :: ?l) with ([Txt ["("%char]] ++ l). rewrite !put_all_app. reflexivity.
Qed.
Lemma mat_pieces_ok (E : ops T) o m r c g : mat_of eq m r c g -> (forall o i j, (i < r)%nat -> (j < c)%nat -> pr o (g i j) = put_all o (pe (g i j))) ->
  M_print E pr o m = Ok (put_all o (mat_pieces pe r c g)).
Proof.
  intros Hm H. unfold M_print.
  destruct (ret_False _ _ (MatProofs.Mat_copy_ok E never eq m r c g Hm)) as (d & -> & Hd). cbn [bind].
  destruct (MatProofs.mat_of_dims eq d r c g Hd) as (-> & -> & _).
  assert (R : forall i n a o, (i < r)%nat -> (a + n <= c)%nat ->
    for_ n a (fun j o => eval o (entry d i j) (fun x => done (put (pr o x) [" "%char]))) o = done (put_all o (flat_map (fun j => pe (g i j) ++ [Txt [" "%char]]) (seq a n)))).
  { intros i n. induction n as [|n IH]; intros a o' Hi Ha; [reflexivity|]. cbn [for_ seq flat_map].
    destruct (ret_False _ _ (MatProofs.entry_of never eq d r c g i a Hd Hi ltac:(lia))) as (x & -> & ->). cbn [eval]. unfold done at 1. cbn [andthen].
    rewrite IH by (auto; lia). rewrite !put_all_app, H by (auto; lia). reflexivity. }
  assert (L : forall n a o, (a + n <= r)%nat ->
    for_ n a (fun i o => andthen (for_ c 0 (fun j o => eval o (entry d i j) (fun x => done (put (pr o x) [" "%char]))) o)
            (fun o => if (i <? r - 1)%nat then done (mkOut (obuf o ++ [NEWLINE]) (owidth o) (ofill o)) else done o)) o =
    done (put_all o (flat_map (fun i => row_pieces pe c (g i) ++ (if (i <? r - 1)%nat then [Line] else [])) (seq a n)))).
  { intros n. induction n as [|n IH]; intros a o' Ha; [reflexivity|]. cbn [for_ seq flat_map]. rewrite R by lia. unfold done at 1. cbn [andthen].
    destruct (a <? r - 1)%nat; unfold done at 1; cbn [andthen]; rewrite IH by lia; rewrite !put_all_app; reflexivity. }
  rewrite L by lia. reflexivity.
Qed.
End Elements.
Lemma deque_pieces_ok o l : deque_print o l = put_all o (deque_pieces l).
Proof.
  unfold deque_print, deque_pieces. change (Txt DEQUE_OPEN :: ?l) with ([Txt DEQUE_OPEN] ++ l). rewrite !put_all_app. cbn [put_all fold_left put_piece]. f_equal.
  generalize (put o DEQUE_OPEN). induction l as [|b l IH]; intros o'; [reflexivity|]. cbn [deque_loop]. rewrite IH. destruct l; reflexivity.
Qed.
Lemma factor_pieces_ok o x : factor_print o x = (l <- factor_pieces x ;; Ok (put_all o l)).
Proof. unfold factor_print, factor_pieces. destruct (equals_int32 (power x) 1) as [[]| | | |]; reflexivity. Qed.
Lemma factors_pieces_ok l : forall o, print_factors o l = (ps <- factors_pieces l ;; Ok (put_all o ps)).
Proof.
  induction l as [|x l IH]; intros o; [reflexivity|]. cbn [print_factors factors_pieces]. rewrite factor_pieces_ok.
  destruct (factor_pieces x) as [a| | | |]; cbn [bind]; auto. rewrite IH. destruct (factors_pieces l) as [b| | | |]; cbn [bind]; auto.
  f_equal. change (Txt TIMES :: ?l) with ([Txt TIMES] ++ l). rewrite !put_all_app. reflexivity.
Qed.
Lemma term_pieces_ok o t : term_print o t = (ps <- term_pieces t ;; Ok (put_all o ps)).
Proof.
  unfold term_print, term_pieces. destruct (Frac_of_int 0) as [z| | | |]; cbn [bind]; auto. destruct (Frac_of_int 1) as [u| | | |]; cbn [bind]; auto.
  destruct (F_eq (coeff t) z) as [[]| | | |]; cbn [bind]; auto.
  replace (length (factors t)) with (length (map snd (factors t))) by apply map_length.
  destruct (map snd (factors t)) as [|x l]; cbn [length Nat.eqb]; destruct (F_eq (coeff t) u) as [[]| | | |]; cbn [bind]; auto.
  - rewrite factor_pieces_ok. destruct (factor_pieces x) as [a| | | |]; cbn [bind]; auto. rewrite factors_pieces_ok.
    destruct (factors_pieces l) as [b| | | |]; cbn [bind]; auto. rewrite put_all_app. reflexivity.
  - rewrite factors_pieces_ok, frac_pieces_ok. destruct (factors_pieces (x :: l)) as [b| | | |]; cbn [bind]; auto.
Qed.
Lemma terms_pieces_ok l : forall o, print_terms o l = (ps <- terms_pieces l ;; Ok (put_all o ps)).
Proof.
  induction l as [|x l IH]; intros o; [reflexivity|]. cbn [print_terms terms_pieces]. rewrite term_pieces_ok.
  destruct (term_pieces x) as [a| | | |]; cbn [bind]; auto. rewrite IH. destruct (terms_pieces l) as [b| | | |]; cbn [bind]; auto.
  f_equal. change (Txt PLUS :: ?l) with ([Txt PLUS] ++ l). rewrite !put_all_app. reflexivity.
Qed.
Lemma poly_pieces_ok o p : poly_print o p = (ps <- poly_pieces p ;; Ok (put_all o ps)).
Proof.
  destruct p as [|t l]; [reflexivity|]. cbn [poly_print poly_pieces]. rewrite term_pieces_ok.
  destruct (term_pieces t) as [a| | | |]; cbn [bind]; auto. rewrite terms_pieces_ok. destruct (terms_pieces l) as [b| | | |]; cbn [bind]; auto.
  rewrite put_all_app. reflexivity.
Qed.

(** *** Default flags *)
Definition piece_ok (fl : flags) (p : piece) : Prop := match p with Num x => wf x | Small z => adjust fl = Right \/ 0 <= z | _ => True end.
Lemma ins_default fl l : base fl = Dec -> showpos fl = false -> adjust fl <> Left -> Forall (piece_ok fl) l -> forall o, ins_all fl o l = put_all o l.
Proof.
  intros Eb Es Ea H. induction H as [|p l Hp _ IH]; intros o; [reflexivity|]. cbn [ins_all put_all fold_left]. fold (ins_all fl). fold put_all.
  replace (ins_piece fl o p) with (put_piece o p); [apply IH|].
  destruct p as [t|x|z|]; cbn [ins_piece put_piece piece_ok] in *; [| | |reflexivity].
  - unfold put_str, put. destruct (adjust fl); try contradiction; reflexivity.
  - symmetry. apply Int_insert_default; auto.
  - unfold put_int, put, int_prefix, int_digits, dec_int32. rewrite Eb, Es. destruct (Z.ltb_spec z 0).
    + destruct Hp as [Hp|Hp]; [|lia]. rewrite Z.abs_neq, Hp by lia. reflexivity.
    + rewrite Z.abs_eq by lia. cbn [app]. destruct (adjust fl); try contradiction; reflexivity.
Qed.

(** *** Without a field width *)
Definition shown_piece (fl : flags) (p : piece) : chars :=
  match p with
  | Txt t => t
  | Num x => minus x ++ int_prefix fl (upper x) ++ int_digits fl (upper x) ++ flat_map (block fl) (lower x)
  | Small z => int_prefix fl z ++ int_digits fl z
  | Line => [NEWLINE]
  end.
Lemma put_int_width fl o z : owidth (put_int fl o z) = 0. Proof. reflexivity. Qed.
Lemma Int_insert_width fl o x : owidth (Int_insert fl o x) = 0.
Proof.
  unfold Int_insert. set (o1 := if negative x then _ else _). clearbody o1. destruct (skip_zero_bins (rev (bins x))) as [|b r]; [reflexivity|].
  destruct (put_bins_text fl r (put_int fl o1 b)) as [_ ->]. destruct r; reflexivity.
Qed.
Lemma shown_ok fl o p : owidth o = 0 -> obuf (ins_piece fl o p) = obuf o ++ shown_piece fl p /\ owidth (ins_piece fl o p) = 0.
Proof.
  intros W. destruct p as [t|x|z|]; cbn [ins_piece shown_piece].
  - unfold put_str. rewrite W. cbn [obuf owidth Z.to_nat Nat.sub repeat app]. rewrite app_nil_r. destruct (adjust fl); auto.
  - split; [apply Int_insert_text, W|apply Int_insert_width].
  - unfold put_int. rewrite W. cbn [obuf owidth Z.to_nat Nat.sub repeat app]. rewrite !app_nil_r. split; [|reflexivity]. destruct (adjust fl), (base fl); reflexivity.
  - auto.
Qed.
Lemma shown_all fl l : forall o, owidth o = 0 -> obuf (ins_all fl o l) = obuf o ++ flat_map (shown_piece fl) l /\ owidth (ins_all fl o l) = 0.
Proof.
  induction l as [|p l IH]; intros o W; [cbn; rewrite app_nil_r; auto|]. cbn [ins_all fold_left flat_map]. destruct (shown_ok fl o p W) as [E W'].
  destruct (IH _ W') as [E' W2]. split; [|exact W2]. unfold ins_all in E'. rewrite E', E, <- app_assoc. reflexivity.
Qed.
(** the width is used up by the first insertion *)
Lemma first_width fl o p : p <> Line -> owidth (ins_piece fl o p) = 0.
Proof. destruct p; try reflexivity; [intros _; apply Int_insert_width|contradiction]. Qed.
Lemma width_first fl o p l : p <> Line -> obuf (ins_all fl o (p :: l)) = obuf (ins_piece fl o p) ++ flat_map (shown_piece fl) l.
Proof. intros H. cbn [ins_all fold_left]. apply (shown_all fl l), first_width, H. Qed.

(** *** Characters of numbers *)
Definition num_char (c : ascii) : Prop := In c (list_ascii_of_string "0123456789abcdefABCDEFxX+-").
Lemma digits_num t : digits t -> Forall num_char t.
Proof.
  intros D. unfold digits in D. eapply Forall_impl; [|exact D]. intros c H. unfold digit_of in H. unfold num_char. cbn.
  destruct c as [[] [] [] [] [] [] [] []]; cbn in H; try discriminate; auto 20.
Qed.
Lemma digit_in_num up d : 0 <= d < 16 -> num_char (digit_in up d).
Proof.
  intros Hd. assert (K : In (Z.to_nat d) (seq 0 16)) by (apply in_seq; lia). rewrite <- (Z2Nat.id d) by lia. clear Hd.
  cbn in K. unfold num_char. repeat (destruct K as [<-|K]; [destruct up; cbn; auto 30|]). contradiction.
Qed.
Lemma to_base_num b up f : 8 <= b <= 16 -> forall n, 0 <= n -> Forall num_char (to_base f b up n).
Proof.
  intros Hb. induction f as [|f IH]; intros n Hn; cbn [to_base]; [constructor|]. destruct (Z.ltb_spec n b).
  - constructor; [apply digit_in_num; lia|constructor].
  - apply Forall_app. split; [apply IH, Z.div_pos; lia|]. constructor; [|constructor]. pose proof (Z.mod_pos_bound n b). apply digit_in_num. lia.
Qed.
Lemma int_digits_num fl z : fits z -> Forall num_char (int_digits fl z).
Proof.
  intros [L H]. unfold INT32_MIN, INT32_MAX in *. unfold int_digits. pose proof (Z.mod_pos_bound z (2 ^ 32) ltac:(lia)).
  destruct (base fl); [|apply to_base_num; lia|apply to_base_num; lia].
  apply digits_num, (dec_aux_ok 9). change (p10 10) with 10000000000. lia.
Qed.
Ltac num_in := unfold num_char; cbn; auto 30.
Ltac fnum := repeat (apply Forall_cons; [num_in|]); apply Forall_nil.
Lemma int_prefix_num fl z : Forall num_char (int_prefix fl z).
Proof. unfold int_prefix. destruct (base fl), (showpos fl), (showbase fl), (z <? 0), (z =? 0), (uppercase fl); cbn; fnum. Qed.
Lemma zeros_num n : Forall num_char (repeat ZERO n).
Proof. induction n; cbn; constructor; auto. num_in. Qed.
Lemma digit_fits b : digit_ok b -> fits b. Proof. unfold digit_ok, fits, INT32_MIN, INT32_MAX. change B with 1000000000. lia. Qed.
Lemma shown_num fl x : canonical x -> Forall num_char (shown_piece fl (Num x)).
Proof.
  intros Cx. destruct (parts_of x Cx) as (_ & U & D & _). cbn [shown_piece]. assert (FU : fits (upper x)) by (apply digit_fits; exact U).
  apply Forall_app. split; [unfold minus; destruct (negative x); fnum|].
  apply Forall_app. split; [apply int_prefix_num|]. apply Forall_app. split; [apply int_digits_num, FU|].
  induction D as [|b r Hb _ IH]; cbn [flat_map]; [constructor|]. apply Forall_app. split; [|exact IH]. unfold block.
  pose proof (int_prefix_num fl b). pose proof (int_digits_num fl b (digit_fits b Hb)). pose proof (zeros_num (9 - length (int_prefix fl b ++ int_digits fl b))).
  destruct (adjust fl), (base fl); repeat (apply Forall_app; split); auto.
Qed.
Lemma shown_small_num fl z : fits z -> Forall num_char (shown_piece fl (Small z)).
Proof. intros H. apply Forall_app. split; [apply int_prefix_num|apply int_digits_num, H]. Qed.
Lemma text_num fl t v : text_with fl t v -> Forall num_char t /\ t <> [].
Proof.
  intros (num & P & ->).
  assert (N : Forall num_char num /\ num <> []).
  { unfold plain_text in P. destruct (base fl).
    - destruct P as [|c ds n H _|c ds n H _]; [split; [fnum|discriminate]| |]; apply numeral_iff in H as (_ & D & _);
        (split; [|discriminate]); [|constructor; [num_in|]]; apply digits_num, D.
    - induction P as [c d [Hd Hc]|t n c d H IH Hn [Hd Hc]]; [split; [|discriminate]|split; [apply Forall_app; split; [apply IH|]|destruct t; discriminate]];
        (constructor; [|constructor]); apply nth_error_In in Hc; unfold num_char; cbn in *; tauto.
    - induction P as [c d [Hd Hc]|t n c d H IH Hn [Hd Hc]]; [split; [|discriminate]|split; [apply Forall_app; split; [apply IH|]|destruct t; discriminate]];
        (constructor; [|constructor]); apply nth_error_In in Hc; destruct (uppercase fl); unfold num_char; cbn in *; tauto. }
  destruct N as [N1 N2]. split.
  - apply Forall_app. split; [unfold sign_text; destruct (v <? 0), (base fl), (showpos fl); fnum|].
    apply Forall_app. split; [|exact N1]. unfold prefix_text. destruct (_ && _); [|constructor]. destruct (base fl), (uppercase fl); fnum.
  - intros E. apply app_eq_nil in E as [_ E]. apply app_eq_nil in E as [_ E]. contradiction.
Qed.
Lemma num_not c t : ~ num_char c -> Forall num_char t -> ~ In c t.
Proof. intros N F I. rewrite Forall_forall in F. apply N, F, I. Qed.
Ltac not_num := unfold num_char; cbn; let H := fresh in intros H; repeat (destruct H as [H|H]; [discriminate H|]); exact H.

(** *** Fractions *)
Lemma frac_shown fl f : flat_map (shown_piece fl) (frac_pieces f) = "("%char :: shown_piece fl (Num (top f)) ++ "/"%char :: shown_piece fl (Num (bot f)) ++ [")"%char].
Proof. unfold frac_pieces. cbn [flat_map app]. cbn [shown_piece app]. rewrite <- !app_assoc. reflexivity. Qed.
Lemma frac_with_iff fl f : reduced f -> (frac_with fl (flat_map (shown_piece fl) (frac_pieces f)) f <->
  text_with fl (shown_piece fl (Num (top f))) (val (top f)) /\ text_with fl (shown_piece fl (Num (bot f))) (val (bot f))).
Proof.
  intros (Ct & Cb & _). rewrite frac_shown. split.
  - intros (n & d & Hn & Hd & E). injection E as E. apply split_at in E as [E1 E2].
    + apply app_inv_tail in E2. cbn [shown_piece]. rewrite E1, E2. auto.
    + apply num_not; [not_num|]. apply shown_num, Ct.
    + apply num_not; [not_num|]. apply (text_num fl n (val (top f)) Hn).
  - intros [H1 H2]. exists (shown_piece fl (Num (top f))), (shown_piece fl (Num (bot f))). auto.
Qed.

(** *** Vectors *)
Lemma comma_shown {T} (pe : T -> list piece) fl x : flat_map (shown_piece fl) (comma_pieces pe x) = separated (map (fun e => flat_map (shown_piece fl) (pe e)) x).
Proof.
  induction x as [|e x IH]; [reflexivity|]. destruct x as [|e' x]; [reflexivity|].
  change (comma_pieces pe (e :: e' :: x)) with (pe e ++ Txt [","%char; " "%char] :: comma_pieces pe (e' :: x)). rewrite flat_map_app. cbn [flat_map]. rewrite IH. reflexivity.
Qed.
Lemma vec_shown {T} (pe : T -> list piece) fl x :
  flat_map (shown_piece fl) (vec_pieces pe x) = ["("%char] ++ separated (map (fun e => flat_map (shown_piece fl) (pe e)) x) ++ [")"%char].
Proof. unfold vec_pieces. cbn [flat_map shown_piece]. rewrite flat_map_app, comma_shown. reflexivity. Qed.
Lemma vec_with_iff {T} (P : list ascii -> T -> Prop) (pe : T -> list piece) fl x :
  Forall (fun e => (forall t, P t e -> plain "," t) /\ plain "," (flat_map (shown_piece fl) (pe e))) x ->
  (vec_with P (flat_map (shown_piece fl) (vec_pieces pe x)) x <-> Forall (fun e => P (flat_map (shown_piece fl) (pe e)) e) x).
Proof.
  intros H. rewrite vec_shown. split.
  - intros (ts & F & E). injection E as E. apply app_inv_tail in E. apply separated_inj in E as <-.
    + clear H. induction x as [|e x IH]; inversion F; subst; constructor; auto.
    + apply Forall_map. eapply Forall_impl; [|exact H]. intros e [_ K]. exact K.
    + clear E. induction F; [constructor|]. inversion H; subst. constructor; [|auto]. apply H3, H0.
  - intros F. exists (map (fun e => flat_map (shown_piece fl) (pe e)) x). split; [|reflexivity]. clear H. induction F; constructor; auto.
Qed.
Lemma mat_shown {T} (pe : T -> list piece) fl r c g :
  flat_map (shown_piece fl) (mat_pieces pe r c g) = mat_text r c (fun i j => flat_map (shown_piece fl) (pe (g i j))).
Proof.
  assert (R : forall i, flat_map (shown_piece fl) (row_pieces pe c (g i)) = row_text c (fun j => flat_map (shown_piece fl) (pe (g i j)))).
  { intros i. unfold row_pieces, row_text. induction (seq 0 c) as [|j l IH]; [reflexivity|]. cbn [flat_map]. rewrite !flat_map_app, IH. reflexivity. }
  unfold mat_text. rewrite (MatPrint.joined_flat _ r 0), Nat.add_0_l. unfold mat_pieces. induction (seq 0 r) as [|i l IH]; [reflexivity|]. cbn [flat_map]. rewrite !flat_map_app, IH, R.
  destruct (i <? r - 1)%nat; reflexivity.
Qed.

(** *** ints *)
Lemma small_with fl z : fits z -> int_with fl (shown_piece fl (Small z)) z.
Proof.
  intros F. pose proof F as [L H]. unfold INT32_MIN, INT32_MAX in *. unfold int_with, text_with, plain_text, sign_text, prefix_text. cbn [shown_piece].
  pose proof (Z.mod_pos_bound z (2 ^ 32) ltac:(lia)) as M. unfold int_prefix, int_digits. change (2 ^ 32) with 4294967296 in *. destruct (base fl).
  - exists (dec_aux 10 (Z.abs z)). split.
    + assert (G : fits (Z.abs z) \/ z = -2147483648) by (unfold fits, INT32_MIN, INT32_MAX; lia). destruct G as [G| ->].
      * pose proof (dec_int32_text _ G) as T. unfold dec_int32 in T. replace (Z.abs z <? 0) with false in T by lia. exact T.
      * vm_compute. apply ct_pos; [|discriminate]. apply numeral_iff. split; [discriminate|]. split; [repeat constructor; discriminate|reflexivity].
    + destruct (z <? 0), (showpos fl), (_ && _); reflexivity.
  - exists (to_base 11 8 false (z mod 4294967296)). rewrite Z.abs_eq by lia. split.
    + apply (to_base_ok 8 false 10); [lia|]. change (8 ^ Z.of_nat 11) with 8589934592. lia.
    + replace (z mod 4294967296 <? 0) with false by lia. replace (z mod 4294967296 =? 0) with (z =? 0); [reflexivity|]. Z.div_mod_to_equations. lia.
  - exists (to_base 11 16 (uppercase fl) (z mod 4294967296)). rewrite Z.abs_eq by lia. split.
    + apply (to_base_ok 16 _ 10); [lia|]. change (16 ^ Z.of_nat 11) with 17592186044416. lia.
    + replace (z mod 4294967296 <? 0) with false by lia. replace (z mod 4294967296 =? 0) with (z =? 0); [reflexivity|]. Z.div_mod_to_equations. lia.
Qed.

(** *** Numbers under each of the flags *)
Definition num_right (fl : flags) (x : Int) : Prop := text_with fl (shown_piece fl (Num x)) (val x).
Lemma num_written fl x : shown_piece fl (Num x) = written fl x. Proof. reflexivity. Qed.
Lemma num_dec fl x : canonical x -> base fl = Dec -> showpos fl = false -> adjust fl <> Left -> num_right fl x.
Proof. intros Cx Eb Es Ea. apply (dec_text fl fresh_out x); auto. Qed.
Lemma num_plus fl x : canonical x -> base fl = Dec -> showpos fl = true -> (num_right fl x <-> 0 <= val x < 10 ^ 9).
Proof. intros Cx Eb Es. apply (dec_plus fl x); auto. Qed.
Lemma num_hex fl x : canonical x -> base fl = Hex -> (num_right fl x <-> Z.abs (val x) < 10 ^ 9).
Proof. intros Cx Eb. apply (hex_text fl x); auto. Qed.
Lemma num_one fl x : canonical x -> Z.abs (val x) < 10 ^ 9 -> (num_right fl x <-> ~ (base fl = Dec /\ showpos fl = true /\ val x < 0)).
Proof. intros Cx H. apply one_bin; auto. Qed.
Lemma num_elem fl x : canonical x -> (forall t, text_with fl t (val x) -> plain "," t) /\ plain "," (flat_map (shown_piece fl) [Num x]).
Proof.
  intros Cx. split.
  - intros t H. destruct (text_num fl t _ H) as [F N]. split; [exact N|]. apply num_not; [not_num|exact F].
  - cbn [flat_map]. rewrite app_nil_r. pose proof (shown_num fl x Cx) as F. split; [|apply num_not; [not_num|exact F]].
    cbn [shown_piece]. destruct (parts_of x Cx) as (_ & U & _). intros E. apply app_eq_nil in E as [_ E]. apply app_eq_nil in E as [_ E]. apply app_eq_nil in E as [E _].
    pose proof (int_digits_ok fl (upper x) U) as P. rewrite E in P. unfold plain_text in P. destruct (base fl); inversion P. destruct t; discriminate. destruct t; discriminate.
Qed.
Lemma frac_elem fl f : reduced f -> (forall t, frac_with fl t f -> plain "," t) /\ plain "," (flat_map (shown_piece fl) (frac_pieces f)).
Proof.
  intros (Ct & Cb & _).
  assert (G : forall n d, Forall num_char n -> Forall num_char d -> plain "," ("("%char :: n ++ "/"%char :: d ++ [")"%char])).
  { intros n d Hn Hd. split; [discriminate|]. intros I. destruct I as [I|I]; [discriminate|]. apply in_app_iff in I as [I|I]; [revert I; apply num_not; [not_num|exact Hn]|].
    destruct I as [I|I]; [discriminate|]. apply in_app_iff in I as [I|[I|[]]]; [|discriminate]. revert I; apply num_not; [not_num|exact Hd]. }
  split.
  - intros t (n & d & Hn & Hd & ->). apply G; eapply text_num; eassumption.
  - rewrite frac_shown. apply G; apply shown_num; assumption.
Qed.
