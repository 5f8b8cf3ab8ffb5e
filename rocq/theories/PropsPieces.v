(** C102: inserting fractions, vectors, matrices and polynomials into a stream whose
    formatting flags have been changed. Model: PieceModel.v; specification: PieceSpec.v,
    FlagsSpec.v. *)
From Coq Require Import Ascii String ZifyBool.
From Verif Require Import Base IntModel IntSpec IntBasics IOModel IOSpec IOProofs FlagsModel FlagsSpec FlagsProofs FracModel FracSpec ElemModel ElemSpec VecModel MatModel MatSpec
  PolyModel MiscModel Int32Spec PieceModel PieceSpec PieceProofs PropsFrac.
Local Open Scope list_scope.
Local Open Scope Z_scope.
Local Notation str := list_ascii_of_string.

(** The sequences of insertions are the operators of the other models on a stream with
    default flags (every field width, every fill). *)
Theorem C102_frac_pieces : forall o f, Frac_print o f = put_all o (frac_pieces f).
Proof. exact frac_pieces_ok. Qed.
Theorem C102_vec_pieces : forall T (pr : ostream -> T -> ostream) pe o x, (forall o e, In e x -> pr o e = put_all o (pe e)) ->
  V_print pr o x = Ok (put_all o (vec_pieces pe x)).
Proof. exact @vec_pieces_ok. Qed.
Theorem C102_mat_pieces : forall T (pr : ostream -> T -> ostream) pe E o m r c g, mat_of eq m r c g ->
  (forall o i j, (i < r)%nat -> (j < c)%nat -> pr o (g i j) = put_all o (pe (g i j))) -> M_print E pr o m = Ok (put_all o (mat_pieces pe r c g)).
Proof. exact @mat_pieces_ok. Qed.
Theorem C102_deque_pieces : forall o l, deque_print o l = put_all o (deque_pieces l).
Proof. exact deque_pieces_ok. Qed.
Theorem C102_factor_pieces : forall o x, factor_print o x = (l <- factor_pieces x ;; Ok (put_all o l)).
Proof. exact factor_pieces_ok. Qed.
Theorem C102_term_pieces : forall o t, term_print o t = (l <- term_pieces t ;; Ok (put_all o l)).
Proof. exact term_pieces_ok. Qed.
Theorem C102_poly_pieces : forall o p, poly_print o p = (l <- poly_pieces p ;; Ok (put_all o l)).
Proof. exact poly_pieces_ok. Qed.
(** showbase and uppercase change nothing in base 10, nor does internal alignment
    except of negative ints. *)
Theorem C102_default : forall fl o l, base fl = Dec -> showpos fl = false -> adjust fl <> Left -> Forall (piece_ok fl) l -> ins_all fl o l = put_all o l.
Proof. intros. apply ins_default; auto. Qed.

(** Whatever is inserted, a field width is spent on the first insertion alone, and the
    rest reads as it does without a width. *)
Theorem C102_width : forall fl o p l, p <> Line -> exists t, obuf (ins_all fl o (p :: l)) = obuf (ins_piece fl o p) ++ t /\
  forall o', owidth o' = 0 -> obuf (ins_all fl o' l) = obuf o' ++ t.
Proof.
  intros fl o p l H. exists (flat_map (shown_piece fl) l). split; [apply width_first, H|]. intros o' W. apply (shown_all fl l o' W).
Qed.

(** A reduced fraction is shown as the flags ask if and only if its two parts are. *)
Definition frac_shows (fl : flags) (f : Frac) : Prop := forall o, owidth o = 0 -> exists t, obuf (ins_all fl o (frac_pieces f)) = obuf o ++ t /\ frac_with fl t f.
Lemma frac_shows_iff fl f : reduced f -> (frac_shows fl f <-> num_right fl (top f) /\ num_right fl (bot f)).
Proof.
  intros R. rewrite <- (frac_with_iff fl f R). split.
  - intros H. destruct (H fresh_out eq_refl) as (t & E & F). rewrite (proj1 (shown_all fl (frac_pieces f) fresh_out eq_refl)) in E. apply app_inv_head in E as ->. exact F.
  - intros H o W. exists (flat_map (shown_piece fl) (frac_pieces f)). split; [apply (shown_all fl _ o W)|exact H].
Qed.
Theorem C102_frac_dec : forall fl f, reduced f -> base fl = Dec -> showpos fl = false -> adjust fl <> Left -> frac_shows fl f.
Proof. intros fl f R Eb Es Ea. apply frac_shows_iff; [exact R|]. destruct R as (Ct & Cb & _). split; apply num_dec; auto. Qed.
Theorem C102_frac_showpos_partial : forall fl f, reduced f -> base fl = Dec -> showpos fl = true ->
  (frac_shows fl f <-> 0 <= val (top f) < 10 ^ 9 /\ val (bot f) < 10 ^ 9).
Proof.
  intros fl f R Eb Es. rewrite (frac_shows_iff fl f R). destruct R as (Ct & Cb & P & _). rewrite (num_plus fl _ Ct Eb Es), (num_plus fl _ Cb Eb Es). intuition lia.
Qed.
Theorem C102_frac_hex_partial : forall fl f, reduced f -> base fl = Hex -> (frac_shows fl f <-> Z.abs (val (top f)) < 10 ^ 9 /\ val (bot f) < 10 ^ 9).
Proof.
  intros fl f R Eb. rewrite (frac_shows_iff fl f R). destruct R as (Ct & Cb & P & _). rewrite (num_hex fl _ Ct Eb), (num_hex fl _ Cb Eb). intuition lia.
Qed.
Theorem C102_frac_small_partial : forall fl f, reduced f -> Z.abs (val (top f)) < 10 ^ 9 -> val (bot f) < 10 ^ 9 ->
  (frac_shows fl f <-> ~ (base fl = Dec /\ showpos fl = true /\ val (top f) < 0)).
Proof.
  intros fl f R Ht Hb. rewrite (frac_shows_iff fl f R). destruct R as (Ct & Cb & P & _). rewrite (num_one fl _ Ct Ht), (num_one fl _ Cb ltac:(lia)). intuition lia.
Qed.

(** A Vec<Int> or Vec<Frac> is shown as the flags ask if and only if each element is. *)
Definition vec_shows {T} (P : list ascii -> T -> Prop) (pe : T -> list piece) (fl : flags) (x : list T) : Prop :=
  forall o, owidth o = 0 -> exists t, obuf (ins_all fl o (vec_pieces pe x)) = obuf o ++ t /\ vec_with P t x.
Definition num_piece (x : Int) : list piece := [Num x].
Definition small_piece (z : Z) : list piece := [Small z].
Lemma vec_shows_iff {T} (P : list ascii -> T -> Prop) (pe : T -> list piece) fl x :
  vec_shows P pe fl x <-> vec_with P (flat_map (shown_piece fl) (vec_pieces pe x)) x.
Proof.
  split.
  - intros H. destruct (H fresh_out eq_refl) as (t & E & F). rewrite (proj1 (shown_all fl _ fresh_out eq_refl)) in E. apply app_inv_head in E as ->. exact F.
  - intros H o W. eexists. split; [apply (shown_all fl _ o W)|exact H].
Qed.
Theorem C102_vec_int_partial : forall fl x, Forall canonical x ->
  (vec_shows (fun t e => text_with fl t (val e)) num_piece fl x <->
   Forall (fun e => forall o t, owidth o = 0 -> obuf (Int_insert fl o e) = obuf o ++ t -> text_with fl t (val e)) x).
Proof.
  intros fl x Cx. rewrite vec_shows_iff, vec_with_iff by (eapply Forall_impl; [|exact Cx]; intros e Ce; apply num_elem, Ce).
  unfold num_piece. cbn [flat_map]. split; apply Forall_impl; intros e H.
  - intros o t W E. rewrite (Int_insert_text fl o e W) in E. apply app_inv_head in E as <-. rewrite app_nil_r in H. exact H.
  - rewrite app_nil_r. apply (H fresh_out _ eq_refl). apply Int_insert_text. reflexivity.
Qed.
Theorem C102_vec_hex_partial : forall fl x, Forall canonical x -> base fl = Hex ->
  (vec_shows (fun t e => text_with fl t (val e)) num_piece fl x <-> Forall (fun e => Z.abs (val e) < 10 ^ 9) x).
Proof.
  intros fl x Cx Eb. rewrite vec_shows_iff, vec_with_iff by (eapply Forall_impl; [|exact Cx]; intros e Ce; apply num_elem, Ce).
  rewrite !Forall_forall in *. unfold num_piece. cbn [flat_map]. split; intros H e I; specialize (H e I); rewrite ?app_nil_r in *; apply (num_hex fl e (Cx e I) Eb); exact H.
Qed.
Theorem C102_vec_frac_partial : forall fl x, Forall reduced x -> (vec_shows (frac_with fl) frac_pieces fl x <-> Forall (frac_shows fl) x).
Proof.
  intros fl x Rx. rewrite vec_shows_iff, vec_with_iff by (eapply Forall_impl; [|exact Rx]; intros e Re; apply frac_elem, Re).
  rewrite !Forall_forall in *. split; intros H e I; specialize (H e I).
  - apply (frac_shows_iff fl e (Rx e I)), (frac_with_iff fl e (Rx e I)), H.
  - apply (frac_with_iff fl e (Rx e I)), (frac_shows_iff fl e (Rx e I)), H.
Qed.

(** Ints stored as int are shown as the flags ask under all of them, in vectors and
    matrices. *)
Theorem C102_vec_int32 : forall fl x, Forall fits x -> vec_shows (int_with fl) small_piece fl x.
Proof.
  intros fl x H. apply vec_shows_iff. rewrite vec_shown. eexists. split; [|reflexivity]. induction H as [|z x Hz _ IH]; constructor; [|exact IH].
  unfold small_piece. cbn [flat_map]. rewrite app_nil_r. apply small_with, Hz.
Qed.
Theorem C102_mat_int32 : forall fl o r c g, owidth o = 0 -> (forall i j, (i < r)%nat -> (j < c)%nat -> fits (g i j)) ->
  exists t, (forall i j, (i < r)%nat -> (j < c)%nat -> int_with fl (t i j) (g i j)) /\ obuf (ins_all fl o (mat_pieces small_piece r c g)) = obuf o ++ mat_text r c t.
Proof.
  intros fl o r c g W H. exists (fun i j => shown_piece fl (Small (g i j)) ++ []). split.
  - intros i j Hi Hj. rewrite app_nil_r. apply small_with, H; auto.
  - rewrite (proj1 (shown_all fl _ o W)), mat_shown. reflexivity.
Qed.
(** Without a width the matrix is laid out the same whatever its elements are. *)
Theorem C102_mat_layout : forall T (pe : T -> list piece) fl o r c g, owidth o = 0 -> exists t,
  (forall i j o', owidth o' = 0 -> obuf (ins_all fl o' (pe (g i j))) = obuf o' ++ t i j) /\ obuf (ins_all fl o (mat_pieces pe r c g)) = obuf o ++ mat_text r c t.
Proof.
  intros T pe fl o r c g W. exists (fun i j => flat_map (shown_piece fl) (pe (g i j))). split.
  - intros i j o' W'. apply (shown_all fl _ o' W').
  - rewrite (proj1 (shown_all fl _ o W)), mat_shown. reflexivity.
Qed.

(** The claim is false of fractions and Vec<Int>: -1/2 with a plus sign wanted, and
    1000000001 in base 16. *)
Definition dec_pos := mkFlags Dec Right true false false.
Definition hex := mkFlags Hex Right false true false.
Theorem C102_refuted : exists f x, reduced f /\ Forall canonical x /\ val (top f) = -1 /\ val (bot f) = 2 /\ map val x = [1000000001] /\
  ~ frac_shows dec_pos f /\ ~ vec_shows (fun t e => text_with hex t (val e)) num_piece hex x.
Proof.
  exists (mkFrac (mkInt [1] true) (mkInt [2] false)), [mkInt [1; 1] false].
  assert (R : reduced (mkFrac (mkInt [1] true) (mkInt [2] false))) by exr.
  assert (C : Forall canonical [mkInt [1; 1] false]) by (constructor; [apply canonicalb_spec; vm_compute; reflexivity|constructor]).
  refine (conj R (conj C (conj eq_refl (conj eq_refl (conj eq_refl (conj _ _)))))).
  - intros H. apply C102_frac_showpos_partial in H; auto. cbn in H. lia.
  - intros H. apply C102_vec_hex_partial in H; auto. inversion H as [|? ? K]. vm_compute in K. discriminate.
Qed.
Definition ins (fl : flags) (w : Z) (l : list piece) : list ascii := obuf (ins_all fl (mkOut [] w "*"%char) l).
Definition half (n : bool) : Frac := mkFrac (mkInt [1] n) (mkInt [2] false).
Example C102_ex : ins dec_pos 0 (frac_pieces (half true)) = str "(-+1/+2)" /\ ins dec_pos 0 (frac_pieces (half false)) = str "(+1/+2)" /\
  ins hex 0 (frac_pieces (mkFrac (mkInt [255] true) (mkInt [16] false))) = str "(-0xff/0x10)" /\
  ins (mkFlags Dec Left false false false) 4 (frac_pieces (half true)) = str "(***-1/2)" /\ ins dec_pos 4 (frac_pieces (half false)) = str "***(+1/+2)" /\
  ins hex 0 (vec_pieces num_piece [mkInt [1; 1] false; mkInt [10] true]) = str "(0x10000000x1, -0xa)" /\
  ins hex 0 (vec_pieces small_piece [-1; 0; 10]) = str "(0xffffffff, 0, 0xa)" /\
  ins dec_pos 0 (mat_pieces small_piece 2 2 (fun i j => Z.of_nat i - Z.of_nat j)) = str "+0 -1 " ++ NEWLINE :: str "+1 +0 " /\
  ins (mkFlags Oct Right false true false) 0 (vec_pieces small_piece [-1; 8]) = str "(037777777777, 010)" /\
  ins dec_pos 0 (deque_pieces [1; 20]) = str "Deque[+1, +20]" /\ ins hex 0 (vec_pieces frac_pieces []) = str "()" /\
  (match poly_pieces [mkTerm (half true) [(str "x", mkFactor (str "x") (mkInt [12] false))]] with Ok l => ins hex 0 l | _ => [] end) = str "(-0x1/0x2) * x^0xc".
Proof. vm_compute. auto 20. Qed.
Example C102_ex_width : ins dec_pos 9 (deque_pieces [1]) = str "***Deque[+1]" /\
  ins (mkFlags Dec Left false false false) 9 (deque_pieces [1]) = str "Deque[***1]" /\
  ins (mkFlags Dec Internal false false false) 9 (deque_pieces [1]) = str "***Deque[1]" /\
  ins dec_pos 4 [Line; Small 7] = NEWLINE :: str "**+7" /\
  ins dec_pos 4 [Txt (str "ab"); Line; Small 7] = str "**ab" ++ NEWLINE :: str "+7".
Proof. vm_compute. auto. Qed.
Print Assumptions C102_frac_pieces.
Print Assumptions C102_vec_pieces.
Print Assumptions C102_mat_pieces.
Print Assumptions C102_deque_pieces.
Print Assumptions C102_factor_pieces.
Print Assumptions C102_term_pieces.
Print Assumptions C102_poly_pieces.
Print Assumptions C102_default.
Print Assumptions C102_width.
Print Assumptions C102_frac_dec.
Print Assumptions C102_frac_showpos_partial.
Print Assumptions C102_frac_hex_partial.
Print Assumptions C102_frac_small_partial.
Print Assumptions C102_vec_int_partial.
Print Assumptions C102_vec_hex_partial.
Print Assumptions C102_vec_frac_partial.
Print Assumptions C102_vec_int32.
Print Assumptions C102_mat_int32.
Print Assumptions C102_mat_layout.
Print Assumptions C102_refuted.
