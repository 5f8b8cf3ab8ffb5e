(** Proofs about the helpers of MiscModel.v, and: the texts of deques, Vecs and
    Mats determine what was printed. *)
From Coq Require Import Ascii String ZifyBool.
From Verif Require Import Base IntModel IntSpec IntBasics IntAddSub IOModel IOSpec IOProofs ElemSpec MatSpec Int32Spec MiscModel.
Local Open Scope list_scope.
Local Open Scope Z_scope.

(** *** Decimal texts *)
Lemma dec_int32_text z : fits z -> canonical_text (dec_int32 z) z.
Proof.
  intros [L H]. unfold INT32_MIN, INT32_MAX in *. unfold dec_int32.
  assert (P : forall n, 0 <= n <= 2147483648 -> (n = 0 -> dec_aux 10 n = ["0"%char]) /\
    (n <> 0 -> exists c ds, dec_aux 10 n = c :: ds /\ c <> "0"%char /\ numeral (c :: ds) n)).
  { intros n Hn. destruct (dec_aux_ok 9 n) as (D1 & D2 & D3 & D4 & D5 & D6); [change (p10 10) with 10000000000; lia|].
    split; auto. intros Hz. destruct (D5 Hz) as (c & ds & E & Hc). exists c, ds. splits; auto.
    rewrite <- E. apply numeral_iff. auto. }
  destruct (Z.ltb_spec z 0) as [N|N].
  - destruct (P (- z)) as [_ P2]; [lia|]. destruct P2 as (c & ds & E & Hc & Hn); [lia|]. rewrite E.
    replace z with (- - z) by lia. apply ct_neg; auto.
  - destruct (P z) as [P1 P2]; [lia|]. destruct (Z.eq_dec z 0) as [->|Nz]; [rewrite P1 by auto; constructor|].
    destruct (P2 Nz) as (c & ds & E & Hc & Hn). rewrite E. apply ct_pos; auto.
Qed.
Lemma numeral_chars ds n : numeral ds n -> Forall (fun c => digit_of c <> None) ds.
Proof.
  induction 1 as [c d H|ds c n d H IH Hc].
  - constructor; [congruence|constructor].
  - apply Forall_app; split; auto. constructor; [congruence|constructor].
Qed.
Lemma canonical_text_chars s z : canonical_text s z -> s <> [] /\ Forall (fun c => digit_of c <> None \/ c = "-"%char) s.
Proof.
  assert (P : forall ds n, numeral ds n -> Forall (fun c => digit_of c <> None \/ c = "-"%char) ds).
  { intros ds n H. eapply Forall_impl; [|eapply numeral_chars; eauto]. auto. }
  intros [|c ds n H Hc|c ds n H Hc]; split; try discriminate; eauto.
  constructor; [left; discriminate|constructor].
Qed.
Lemma numeral_value ds n n' : numeral ds n -> numeral ds n' -> n = n'.
Proof. intros H H'. apply numeral_iff in H as (_ & _ & ->), H' as (_ & _ & ->). reflexivity. Qed.
Lemma canonical_text_value s z z' : canonical_text s z -> canonical_text s z' -> z = z'.
Proof.
  assert (D : digit_of "-"%char = None) by reflexivity.
  assert (Z0 : numeral ["0"%char] 0) by (constructor; reflexivity).
  assert (M : forall ds n, numeral ("-"%char :: ds) n -> False).
  { intros ds n H. apply numeral_chars in H. inversion H; subst. contradiction. }
  intros H H'. destruct H as [|c ds n Hn Hc|c ds n Hn Hc]; inversion H' as [|c' ds' n' Hn' Hc'|c' ds' n' Hn' Hc']; subst; try congruence;
    try (exfalso; eapply M; eassumption).
  - eapply numeral_value; eauto.
  - f_equal. eapply numeral_value; eauto.
Qed.

(** *** Separated texts *)
Definition plain (sep : ascii) (t : list ascii) : Prop := t <> [] /\ ~ In sep t.
Lemma split_at (sep : ascii) (a b x y : list ascii) : ~ In sep a -> ~ In sep b -> a ++ sep :: x = b ++ sep :: y -> a = b /\ x = y.
Proof.
  revert b. induction a as [|c a IH]; intros [|d b] Ha Hb E; cbn in *.
  - injection E. auto.
  - injection E as -> _. exfalso. auto.
  - injection E as <- _. exfalso. auto.
  - injection E as <- E. destruct (IH b) as [-> ->]; auto.
Qed.
Lemma separated_inj l : forall l', Forall (plain ",") l -> Forall (plain ",") l' -> separated l = separated l' -> l = l'.
Proof.
  induction l as [|t l IH]; intros [|t' l'] H H' E; auto.
  - inversion H' as [|? ? [N _]]; subst. destruct l' as [|u l']; cbn in E; destruct t'; try discriminate; contradiction.
  - inversion H as [|? ? [N _]]; subst. destruct l as [|u l]; cbn in E; destruct t; try discriminate; contradiction.
  - inversion H as [|? ? [N C] F]; inversion H' as [|? ? [N' C'] F']; subst.
    destruct l as [|u l], l' as [|u' l'].
    + cbn in E. congruence.
    + exfalso. apply C. cbn in E. rewrite E. apply in_or_app. right. left. auto.
    + exfalso. apply C'. cbn in E. rewrite <- E. apply in_or_app. right. left. auto.
    + change (separated (t :: u :: l)) with (t ++ ","%char :: " "%char :: separated (u :: l)) in E.
      change (separated (t' :: u' :: l')) with (t' ++ ","%char :: " "%char :: separated (u' :: l')) in E.
      apply split_at in E as [-> E]; auto. injection E as E. f_equal. apply IH; auto.
Qed.
Lemma canonical_text_plain c s z : digit_of c = None -> c <> "-"%char -> canonical_text s z -> plain c s.
Proof.
  intros D M H. apply canonical_text_chars in H as [N F]. split; auto. intros I.
  rewrite Forall_forall in F. destruct (F c I); congruence.
Qed.

(** *** Deques *)
Lemma deque_loop_ok l : forall o, owidth o = 0 ->
  deque_loop o l = mkOut (obuf o ++ separated (map dec_int32 l)) 0 (ofill o).
Proof.
  induction l as [|b l IH]; intros [bf w f] Hw; cbn in Hw; subst w.
  - cbn. rewrite app_nil_r. reflexivity.
  - cbn [deque_loop]. destruct l as [|b' l].
    + reflexivity.
    + rewrite IH by reflexivity. rewrite !put0. cbn [obuf ofill]. f_equal.
      change (separated (map dec_int32 (b :: b' :: l))) with (dec_int32 b ++ [","; " "]%char ++ separated (map dec_int32 (b' :: l))).
      rewrite <- !app_assoc. reflexivity.
Qed.
Lemma deque_print_ok o l : deque_print o l =
  mkOut (obuf o ++ repeat (ofill o) (Z.to_nat (owidth o) - 6) ++ list_ascii_of_string "Deque[" ++ separated (map dec_int32 l) ++ ["]"%char]) 0 (ofill o).
Proof.
  unfold deque_print. rewrite deque_loop_ok by reflexivity. rewrite put0. unfold put. cbn [obuf ofill owidth]. f_equal.
  rewrite <- !app_assoc. reflexivity.
Qed.
Lemma texts_of l : Forall fits l -> Forall2 (fun t b => canonical_text t b) (map dec_int32 l) l.
Proof. induction 1; constructor; auto using dec_int32_text. Qed.
Lemma texts_plain c texts (l : list Z) : digit_of c = None -> c <> "-"%char -> Forall2 (fun t b => canonical_text t b) texts l -> Forall (plain c) texts.
Proof. intros D M. induction 1; constructor; auto. eapply canonical_text_plain; eauto. Qed.
Lemma texts_values texts (l l' : list Z) : Forall2 (fun t b => canonical_text t b) texts l -> Forall2 (fun t b => canonical_text t b) texts l' -> l = l'.
Proof.
  intros H. revert l'. induction H as [|t b texts l Ht H IH]; intros l' H'; inversion H' as [|? b' ? l'' Hb Hl]; subst; auto.
  f_equal; [eapply canonical_text_value; eauto|auto].
Qed.
Lemma deque_print_inj l l' : Forall fits l -> Forall fits l' ->
  obuf (deque_print fresh_out l) = obuf (deque_print fresh_out l') -> l = l'.
Proof.
  intros H H' E. rewrite !deque_print_ok in E. cbn [obuf fresh_out owidth ofill] in E.
  apply app_inv_head in E. apply app_inv_head in E. apply app_inv_head in E. apply app_inv_tail in E.
  pose proof (texts_of l H) as T. pose proof (texts_of l' H') as T'.
  apply separated_inj in E; [|apply (texts_plain _ _ l); auto; discriminate|apply (texts_plain _ _ l'); auto; discriminate].
  rewrite E in T. eapply texts_values; eauto.
Qed.

(** *** Shifting and access from the back *)
Lemma shift_ok x n : shift x n = Int_shifted x n.
Proof.
  revert x. induction n as [|n IH]; intros x; [destruct x; reflexivity|].
  cbn [shift]. rewrite IH. unfold Int_shifted. cbn [bins negative]. f_equal.
  change (0 :: bins x) with ([0] ++ bins x). rewrite app_assoc. f_equal. change [0] with (repeat 0 1). rewrite <- repeat_app.
  f_equal. lia.
Qed.
Lemma shift_val x n : val (shift x n) = val x * B ^ Z.of_nat n.
Proof.
  rewrite shift_ok. unfold val, Int_shifted. cbn [negative bins]. rewrite bins_val_app, bins_val_repeat, repeat_length. unfold pw.
  destruct (negative x); lia.
Qed.
Lemma shift_wf x n : wf x -> wf (shift x n).
Proof.
  intros [N F]. rewrite shift_ok. split; cbn [bins Int_shifted].
  - destruct n; cbn; [exact N|discriminate].
  - apply Forall_app. split; auto. apply Forall_repeat0.
Qed.
Lemma shift_canonical x n : canonical x -> (canonical (shift x n) <-> n = O \/ val x <> 0).
Proof.
  intros Hx. destruct n as [|n]; [cbn; tauto|]. destruct Hx as (W & T & Nz). split.
  - intros (_ & (_ & T') & _). right. intros E. rewrite shift_ok in T'. cbn [Int_shifted bins] in T'.
    assert (Hb : bins x = [0]).
    { rewrite (canonical_unique_lemma x Int_default); [reflexivity|split; auto|apply Int_default_canonical|rewrite E; reflexivity]. }
    rewrite Hb in T'. apply T'.
    + rewrite app_length, repeat_length. cbn. lia.
    + apply last_last.
  - intros [|V]; [discriminate|]. split; [apply shift_wf; auto|]. split.
    + rewrite shift_ok. cbn [Int_shifted bins]. apply trimmed_repeat; auto. unfold val in V. destruct (negative x); lia.
    + intros _. rewrite shift_val. intros E. assert (0 < B ^ Z.of_nat (S n)) by (apply Z.pow_pos_nonneg; lia). nia.
Qed.

Lemma write_nth_ok l i v : (i < length l)%nat -> exists l', write_nth l i v = Ok l' /\ length l' = length l /\
  nth_error l' i = Some v /\ (forall j, j <> i -> nth_error l' j = nth_error l j) /\
  bins_val l' = bins_val l + (v - nth i l 0) * B ^ Z.of_nat i.
Proof.
  revert i. induction l as [|b l IH]; intros i Hi; [cbn in Hi; lia|]. destruct i as [|i]; cbn [write_nth].
  - eexists. splits; try reflexivity.
    + intros [|j] Hj; [congruence|reflexivity].
    + cbn [bins_val nth]. change (B ^ Z.of_nat 0) with 1. lia.
  - destruct (IH i) as (l' & E & L & N & O & V); [cbn in Hi; lia|]. rewrite E. cbn [bind]. eexists. splits; try reflexivity.
    + cbn. lia.
    + exact N.
    + intros [|j] Hj; [reflexivity|]. cbn. apply O. lia.
    + cbn [bins_val nth]. rewrite V, Nat2Z.inj_succ, Z.pow_succ_r by lia. ring.
Qed.
Lemma index_ok x i : Z.of_nat (size x) <= 2 ^ 63 -> fits i ->
  (0 <= i < Z.of_nat (size x) -> index_from_back x i = Z.of_nat (size x) - 1 - i) /\
  (~ 0 <= i < Z.of_nat (size x) -> Z.of_nat (size x) <= index_from_back x i).
Proof.
  intros S [L H]. unfold INT32_MIN, INT32_MAX, index_from_back in *. split; intros R.
  - apply Z.mod_small. lia.
  - destruct (Z.lt_ge_cases i 0).
    + rewrite Z.mod_small; lia.
    + rewrite <- (Z.mod_add _ 1) by lia. rewrite Z.mod_small; lia.
Qed.
Lemma from_back_ok x i v : Z.of_nat (size x) <= 2 ^ 63 -> fits i ->
  if (0 <=? i) && (i <? Z.of_nat (size x)) then
    get_bin_from_back x i = Ok (nth (Z.to_nat i) (rev (bins x)) 0) /\
    exists y, set_bin_from_back x i v = Ok y /\ size y = size x /\ negative y = negative x /\
      rev (bins y) = firstn (Z.to_nat i) (rev (bins x)) ++ [v] ++ skipn (S (Z.to_nat i)) (rev (bins x)) /\
      bins_val (bins y) = bins_val (bins x) + (v - nth (Z.to_nat i) (rev (bins x)) 0) * B ^ (Z.of_nat (size x) - 1 - i)
  else get_bin_from_back x i = Throw OutOfRange /\ set_bin_from_back x i v = UB.
Proof.
  intros Hs F. destruct (index_ok x i Hs F) as [I1 I2]. unfold get_bin_from_back, set_bin_from_back.
  destruct (Z.leb_spec 0 i); destruct (Z.ltb_spec i (Z.of_nat (size x))); cbn [andb];
    try (replace (index_from_back x i <? Z.of_nat (size x)) with false by (specialize (I2 ltac:(lia)); lia); auto; fail).
  rewrite I1 by lia. replace (Z.of_nat (size x) - 1 - i <? Z.of_nat (size x)) with true by lia.
  set (n := length (bins x)) in *. change (size x) with n in *.
  replace (Z.to_nat (Z.of_nat n - 1 - i)) with (n - S (Z.to_nat i))%nat by lia.
  set (k := Z.to_nat i) in *. assert (Hk : (k < n)%nat) by lia.
  assert (Hn : nth k (rev (bins x)) 0 = nth (n - S k) (bins x) 0) by (apply rev_nth; exact Hk).
  rewrite Hn. split.
  - unfold at_. rewrite (nth_error_nth' _ 0) by (fold n; lia). reflexivity.
  - destruct (write_nth_ok (bins x) (n - S k) v) as (l' & E & L & N & O & V); [fold n; lia|].
    rewrite E. cbn [bind]. eexists. splits; try reflexivity.
    + exact L.
    + cbn [bins]. apply (nth_ext _ _ 0 0).
      * rewrite !app_length, firstn_length, skipn_length, !rev_length, L. fold n. cbn. lia.
      * intros j Hj. rewrite rev_length, L in Hj. fold n in Hj. rewrite rev_nth by lia. rewrite L. fold n.
        assert (Lf : length (firstn k (rev (bins x))) = k) by (rewrite firstn_length, rev_length; fold n; lia).
        destruct (lt_eq_lt_dec j k) as [[J|J]|J].
        -- rewrite app_nth1 by lia. rewrite <- (firstn_skipn k (rev (bins x))) in Hn. 
           rewrite nth_error_nth with (x := nth (n - S j) (bins x) 0) (d := 0).
           ++ symmetry. rewrite <- (rev_nth (bins x) 0) by (fold n; lia). rewrite <- (firstn_skipn k (rev (bins x))) at 2. rewrite app_nth1 by lia. reflexivity.
           ++ rewrite O by lia. apply nth_error_nth'. fold n. lia.
        -- subst j. rewrite app_nth2 by lia. rewrite Lf, Nat.sub_diag. cbn [nth app]. apply nth_error_nth. exact N.
        -- rewrite app_nth2 by lia. rewrite Lf. destruct (j - k)%nat as [|q] eqn:Q; [lia|]. cbn [nth app].
           rewrite nth_error_nth with (x := nth (n - S j) (bins x) 0) (d := 0).
           ++ rewrite <- (rev_nth (bins x) 0) by (fold n; lia). rewrite <- (firstn_skipn (S k) (rev (bins x))) at 1.
              rewrite app_nth2; rewrite firstn_length, rev_length; fold n; [|lia]. f_equal. lia.
           ++ rewrite O by lia. apply nth_error_nth'. fold n. lia.
    + cbn [bins]. rewrite V. do 3 f_equal. lia.
Qed.

(** *** testOutput *)
Lemma text_eqb_spec a b : text_eqb a b = true <-> a = b.
Proof. unfold text_eqb. destruct (list_eq_dec ascii_dec a b); split; congruence. Qed.
Lemma testOutput_ok T (pr : ostream -> T -> res ostream) cout y expected o : pr fresh_out y = Ok o ->
  (obuf o = expected /\ testOutput pr cout y expected = Ok (true, cout)) \/
  (obuf o <> expected /\ exists cout', testOutput pr cout y expected = Ok (false, cout') /\ owidth cout' = 0 /\ ofill cout' = ofill cout /\
     obuf cout' = obuf cout ++ repeat (ofill cout) (Z.to_nat (owidth cout) - 8) ++ list_ascii_of_string "FAILED: " ++ obuf o ++
       list_ascii_of_string " : " ++ expected ++ [ascii_of_nat 10]).
Proof.
  intros E. unfold testOutput. rewrite E. cbn [bind]. destruct (text_eqb (obuf o) expected) eqn:Q.
  - left. apply text_eqb_spec in Q. auto.
  - right. split; [intros C; apply text_eqb_spec in C; congruence|]. eexists. splits; try reflexivity.
    unfold put, endl. cbn [obuf owidth ofill]. rewrite <- !app_assoc. reflexivity.
Qed.
