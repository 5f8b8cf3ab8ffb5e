(** Property theorems about the remaining helpers (C84-C86) and about the texts of
    Vecs and Mats (C87). *)
From Coq Require Import Ascii String QArith SpecFloat ZifyBool.
From Verif Require Import Base IntModel IntSpec IntBasics IOModel IOSpec IOProofs FracModel FracSpec FracProofs FracIO
  ElemModel ElemSpec VecModel MatModel MatSpec DoubleModel Int32Spec MiscModel MiscProofs MiscText.
Local Open Scope list_scope.
Local Open Scope Z_scope.
Definition str (s : string) : list ascii := list_ascii_of_string s.
Ltac exc := apply canonicalb_spec; vm_compute; reflexivity.

(** ** C84: the text of a deque of bins *)
Theorem C84_deque_text : forall o l, Forall fits l -> exists texts,
  Forall2 canonical_text texts l /\
  deque_print o l = mkOut (obuf o ++ repeat (ofill o) (Z.to_nat (owidth o) - 6) ++ str "Deque[" ++ separated texts ++ str "]") 0 (ofill o).
Proof. intros o l H. exists (map dec_int32 l). split; [apply texts_of, H|apply deque_print_ok]. Qed.
Theorem C84_deque_determines : forall l l', Forall fits l -> Forall fits l' ->
  obuf (deque_print fresh_out l) = obuf (deque_print fresh_out l') -> l = l'.
Proof. exact deque_print_inj. Qed.
Example C84_ex : deque_print (mkOut (str "x=") 8 "*"%char) [0; -2147483648; 15] = mkOut (str "x=**Deque[0, -2147483648, 15]") 0 "*"%char /\
  deque_print fresh_out [] = mkOut (str "Deque[]") 0 " "%char /\
  Forall fits [0; -2147483648; 15].
Proof. splits; [vm_compute; auto|vm_compute; auto|]. repeat constructor; unfold INT32_MIN, INT32_MAX; lia. Qed.
Print Assumptions C84_deque_text.
Print Assumptions C84_deque_determines.

(** ** C85: shifting, and bins counted from the back *)
Theorem C85_shift : forall x n, shift x n = Int_shifted x n /\ val (shift x n) = val x * (10 ^ 9) ^ Z.of_nat n /\
  (wf x -> wf (shift x n)) /\ (canonical x -> (canonical (shift x n) <-> n = 0%nat \/ val x <> 0)).
Proof. intros x n. splits; [apply shift_ok|apply shift_val|apply shift_wf|apply shift_canonical]. Qed.
(** Bin i from the back is read and written when it exists; otherwise reading
    throws and writing is undefined. The i-th bin from the back weighs
    B^(size - 1 - i). *)
Theorem C85_from_back : forall x i v, Z.of_nat (size x) <= 2 ^ 63 -> INT32_MIN <= i <= INT32_MAX ->
  if (0 <=? i) && (i <? Z.of_nat (size x)) then
    get_bin_from_back x i = Ok (nth (Z.to_nat i) (rev (bins x)) 0) /\
    exists y, set_bin_from_back x i v = Ok y /\ size y = size x /\ negative y = negative x /\
      rev (bins y) = firstn (Z.to_nat i) (rev (bins x)) ++ [v] ++ skipn (S (Z.to_nat i)) (rev (bins x)) /\
      bins_val (bins y) = bins_val (bins x) + (v - nth (Z.to_nat i) (rev (bins x)) 0) * (10 ^ 9) ^ (Z.of_nat (size x) - 1 - i)
  else get_bin_from_back x i = Throw OutOfRange /\ set_bin_from_back x i v = UB.
Proof. exact from_back_ok. Qed.
Theorem C85_set_get : forall x i j v y, Z.of_nat (size x) <= 2 ^ 63 -> INT32_MIN <= i <= INT32_MAX -> INT32_MIN <= j <= INT32_MAX ->
  set_bin_from_back x i v = Ok y -> get_bin_from_back y j = if j =? i then Ok v else get_bin_from_back x j.
Proof.
  intros x i j v y Hs Hi Hj E. pose proof (from_back_ok x i v Hs Hi) as H.
  destruct (Z.leb_spec 0 i) as [I0|I0]; [|destruct H as [_ H]; rewrite H in E; discriminate].
  destruct (Z.ltb_spec i (Z.of_nat (size x))) as [I1|I1]; [|destruct H as [_ H]; rewrite H in E; discriminate].
  cbn [andb] in H. destruct H as (_ & y' & E' & Sy & _ & R & _). rewrite E in E'. injection E' as <-.
  pose proof (from_back_ok y j 0 ltac:(rewrite Sy; exact Hs) Hj) as G. pose proof (from_back_ok x j 0 Hs Hj) as K. rewrite Sy in G.
  destruct ((0 <=? j) && (j <? Z.of_nat (size x)))%bool eqn:Q.
  - destruct G as [G _], K as [K _]. rewrite G, K, R.
    assert (L : length (firstn (Z.to_nat i) (rev (bins x))) = Z.to_nat i) by (rewrite firstn_length, rev_length; unfold size in *; lia).
    destruct (Z.eqb_spec j i) as [->|N].
    + rewrite app_nth2 by lia. rewrite L, Nat.sub_diag. reflexivity.
    + f_equal. destruct (Z.lt_ge_cases j i).
      * rewrite app_nth1 by lia. rewrite <- (firstn_skipn (Z.to_nat i) (rev (bins x))) at 2. rewrite app_nth1 by lia. reflexivity.
      * rewrite app_nth2 by lia. rewrite L. destruct (Z.to_nat j - Z.to_nat i)%nat as [|q] eqn:Q'; [lia|]. cbn [nth app].
        rewrite <- (firstn_skipn (S (Z.to_nat i)) (rev (bins x))) at 2.
        assert (L' : length (firstn (S (Z.to_nat i)) (rev (bins x))) = S (Z.to_nat i)) by (rewrite firstn_length, rev_length; unfold size in *; lia).
        rewrite app_nth2 by lia. rewrite L'. f_equal. lia.
  - destruct G as [G _], K as [K _]. rewrite G, K. destruct (Z.eqb_spec j i); auto. subst j. lia.
Qed.
Theorem C85_max : forall a b, max_int32 a b = Z.max a b.
Proof. intros a b. unfold max_int32. destruct (Z.gtb_spec a b); lia. Qed.
Example C85_ex : shift (mkInt [7; 5] true) 2 = mkInt [0; 0; 7; 5] true /\ val (mkInt [0; 0; 7; 5] true) = - 5000000007 * (10 ^ 9) ^ 2 /\
  get_bin_from_back (mkInt [7; 5; 3] true) 2 = Ok 7 /\ get_bin_from_back (mkInt [7; 5; 3] true) 3 = Throw OutOfRange /\
  get_bin_from_back (mkInt [7; 5; 3] true) (-1) = Throw OutOfRange /\
  set_bin_from_back (mkInt [7; 5; 3] true) 1 9 = Ok (mkInt [7; 9; 3] true) /\ set_bin_from_back (mkInt [7; 5; 3] true) 3 9 = UB /\
  max_int32 (-3) 2 = 2.
Proof. vm_compute. auto 10. Qed.
Print Assumptions C85_shift.
Print Assumptions C85_from_back.
Print Assumptions C85_set_get.
Print Assumptions C85_max.

(** ** C86: testOutput *)
(** For every type and printer that returns: true exactly when the text is the
    expected one, and then nothing is written; otherwise one line is written. *)
Theorem C86_testOutput : forall T (pr : ostream -> T -> res ostream) cout y expected o, pr fresh_out y = Ok o ->
  (obuf o = expected /\ testOutput pr cout y expected = Ok (true, cout)) \/
  (obuf o <> expected /\ exists cout', testOutput pr cout y expected = Ok (false, cout') /\ owidth cout' = 0 /\ ofill cout' = ofill cout /\
     obuf cout' = obuf cout ++ repeat (ofill cout) (Z.to_nat (owidth cout) - 8) ++ str "FAILED: " ++ obuf o ++ str " : " ++ expected ++ [ascii_of_nat 10]).
Proof. exact testOutput_ok. Qed.
(** an Int passes exactly against its canonical decimal text *)
Theorem C86_testOutput_Int : forall cout x expected, canonical x ->
  (testOutput (fun o x => Ok (Int_print o x)) cout x expected = Ok (true, cout) <-> canonical_text expected (val x)) /\
  exists b cout', testOutput (fun o x => Ok (Int_print o x)) cout x expected = Ok (b, cout') /\ (b = true -> cout' = cout).
Proof.
  intros cout x expected Hx. pose proof (Int_to_string_ok x Hx) as Hs. unfold Int_to_string in Hs.
  destruct (C86_testOutput Int (fun o x => Ok (Int_print o x)) cout x expected _ eq_refl) as [[E1 E2]|[E1 (cout' & E2 & _)]]; rewrite E2; split.
  - rewrite <- E1. tauto.
  - exists true, cout. auto.
  - split; [discriminate|]. intros Hc. exfalso. apply E1. eapply canonical_text_unique; eauto.
  - exists false, cout'. split; [reflexivity|discriminate].
Qed.
(** a Frac in lowest terms exactly against (p/q) *)
Theorem C86_testOutput_Frac : forall cout f expected, reduced f ->
  (testOutput (fun o x => Ok (Frac_print o x)) cout f expected = Ok (true, cout) <->
   exists st sb, canonical_text st (val (top f)) /\ canonical_text sb (val (bot f)) /\ expected = str "(" ++ st ++ str "/" ++ sb ++ str ")").
Proof.
  intros cout f expected Rf. destruct (Frac_print_text f [] SPACE Rf) as (st & sb & Ht & Hb & E).
  destruct (C86_testOutput Frac (fun o x => Ok (Frac_print o x)) cout f expected _ eq_refl) as [[E1 E2]|[E1 (cout' & E2 & _)]]; rewrite E2;
    change fresh_out with (mkOut [] 0 SPACE) in E1; rewrite E in E1; cbn [obuf] in E1.
  - split; auto. intros _. exists st, sb. splits; auto.
  - split; [discriminate|]. intros (st' & sb' & Ht' & Hb' & ->). exfalso. apply E1.
    rewrite (canonical_text_unique _ _ _ Ht Ht'), (canonical_text_unique _ _ _ Hb Hb'). reflexivity.
Qed.
Example C86_ex : testOutput (fun o x => Ok (Int_print o x)) (mkOut (str "a") 0 " "%char) (mkInt [5; 1] false) (str "1000000005") = Ok (true, mkOut (str "a") 0 " "%char) /\
  testOutput (fun o x => Ok (Int_print o x)) (mkOut (str "a") 10 "*"%char) (mkInt [5; 1] false) (str "15") =
    Ok (false, mkOut (str "a**FAILED: 1000000005 : 15" ++ [ascii_of_nat 10]) 0 "*"%char) /\
  testOutput (fun o x => Ok (Frac_print o x)) fresh_out (mkFrac (mkInt [2] true) (mkInt [3] false)) (str "(-2/3)") = Ok (true, fresh_out).
Proof. vm_compute. auto. Qed.
Print Assumptions C86_testOutput.
Print Assumptions C86_testOutput_Int.
Print Assumptions C86_testOutput_Frac.

(** ** C87: printed Vecs and Mats are unambiguous *)
Theorem C87_vec_Int : forall x y o o', Forall canonical x -> Forall canonical y ->
  V_print Int_print fresh_out x = Ok o -> V_print Int_print fresh_out y = Ok o' -> obuf o = obuf o' -> x = y.
Proof.
  intros x y o o' Hx Hy. apply (V_print_inj R_int Int_print clear_Int); (eapply Forall_impl; [|eassumption]); intros e He; exists (val e); split; auto.
Qed.
Theorem C87_vec_int : forall x y o o', Forall fits x -> Forall fits y ->
  V_print int32_print fresh_out x = Ok o -> V_print int32_print fresh_out y = Ok o' -> obuf o = obuf o' -> x = y.
Proof.
  intros x y o o' Hx Hy. apply (V_print_inj R_int32 int32_print clear_int32); (eapply Forall_impl; [|eassumption]); intros e He; exists e; split; auto.
Qed.
Theorem C87_vec_Frac : forall x y o o', Forall reduced x -> Forall reduced y ->
  V_print Frac_print fresh_out x = Ok o -> V_print Frac_print fresh_out y = Ok o' -> obuf o = obuf o' -> x = y.
Proof.
  intros x y o o' Hx Hy. apply (V_print_inj R_frac Frac_print clear_Frac); (eapply Forall_impl; [|eassumption]); intros e He; exists (Fval e); split; auto; reflexivity.
Qed.
(** Matrices with at least one column; without columns the text is all newlines. *)
Theorem C87_mat_Int : forall m r c g m' r' c' g' o o', mat_of R_int m r c g -> mat_of R_int m' r' c' g' -> (0 < c)%nat -> (0 < c')%nat ->
  M_print Int_ops Int_print fresh_out m = Ok o -> M_print Int_ops Int_print fresh_out m' = Ok o' -> obuf o = obuf o' ->
  r = r' /\ ((0 < r)%nat -> c = c') /\ data m = data m'.
Proof. exact (M_print_inj R_int Int_print clear_Int Int_ops). Qed.
Theorem C87_mat_int : forall m r c g m' r' c' g' o o', mat_of R_int32 m r c g -> mat_of R_int32 m' r' c' g' -> (0 < c)%nat -> (0 < c')%nat ->
  M_print int32_ops int32_print fresh_out m = Ok o -> M_print int32_ops int32_print fresh_out m' = Ok o' -> obuf o = obuf o' ->
  r = r' /\ ((0 < r)%nat -> c = c') /\ data m = data m'.
Proof. exact (M_print_inj R_int32 int32_print clear_int32 int32_ops). Qed.
Theorem C87_mat_Frac : forall m r c g m' r' c' g' o o', mat_of R_frac m r c g -> mat_of R_frac m' r' c' g' -> (0 < c)%nat -> (0 < c')%nat ->
  M_print Frac_ops Frac_print fresh_out m = Ok o -> M_print Frac_ops Frac_print fresh_out m' = Ok o' -> obuf o = obuf o' ->
  r = r' /\ ((0 < r)%nat -> c = c') /\ data m = data m'.
Proof. exact (M_print_inj R_frac Frac_print clear_Frac Frac_ops). Qed.
Example C87_ex : V_print int32_print fresh_out [12; -3] = Ok (mkOut (str "(12, -3)") 0 " "%char) /\
  V_print int32_print fresh_out [1; 2; -3] = Ok (mkOut (str "(1, 2, -3)") 0 " "%char) /\
  (* not so for doubles: six digits are written *)
  double_print fresh_out (S754_finite false 4503599627370496 (-52)) = double_print fresh_out (S754_finite false 4503599627370497 (-52)).
Proof. vm_compute. auto. Qed.
Print Assumptions C87_vec_Int.
Print Assumptions C87_vec_int.
Print Assumptions C87_vec_Frac.
Print Assumptions C87_mat_Int.
Print Assumptions C87_mat_int.
Print Assumptions C87_mat_Frac.
