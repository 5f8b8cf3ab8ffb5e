(** Proofs about compound assignments of Vec, Mat, Term and Poly when memory runs out
    (ContAllocModel.v). *)
From Coq Require Import Ascii QArith ZifyBool.
From Verif Require Import Base IntModel IntSpec IntBasics IntAddSub IntMul IntMod IOModel FracModel FracSpec FracProofs ElemModel ElemSpec ElemProofs VecModel MatModel MatProofs
  IntCalls PolyModel PolySpec PolyProofs PolyTerms PolyPoly LeaveModel LeaveSpec LeaveProofs
  AllocModel IntAllocModel IntAllocSpec IntAllocProofs FracAllocModel FracAllocSpec FracAllocProofs ContAllocModel ContAllocSpec.
Import ListNotations.
Local Open Scope list_scope.
Local Open Scope nat_scope.

(** ** Rules *)
Section Rules.
Context (fails : nat -> bool) {S : Type}.
Implicit Types (F : outcome S) (L : S -> Prop).
Lemma c_weak p F L L' s : cends p F L s -> (forall z, L z -> L' z) -> cends p F L' s.
Proof. intros R H n. specialize (R n). destruct (p s n) as [[z j] [m|]]; auto. Qed.
Lemma c_here (k : S -> cstep S unit) F L s : cends (k s) F L s -> cends (cnow chere k) F L s.
Proof. intros R n. apply R. Qed.
Lemma c_just {A} (k : A -> cstep S unit) (m : res A) f L s : (forall a, m = Ok a -> cends (k a) (f a) L s) -> cends (cnow (cjust m) k) (eval s m f) L s.
Proof. intros R n. unfold cnow, cjust. destruct m; cbn [eval]; try (split; reflexivity || exact I). apply R. reflexivity. Qed.
Lemma c_may {A} (k : A -> cstep S unit) (m : res A) f L s : L s -> (forall a, m = Ok a -> cends (k a) (f a) L s) -> cends (cnow (cmay fails m) k) (eval s m f) L s.
Proof. intros Ls R n. unfold cnow, cmay. destruct (fails n); [exact Ls|]. destruct m; cbn [eval]; try (split; reflexivity || exact I). apply R. reflexivity. Qed.
Lemma c_bind (p q : cstep S unit) F f L L1 s : cends p F L1 s -> (forall z, L1 z -> L z) -> (snd F = Ok tt -> cends q (f (fst F)) L (fst F)) ->
  cends (cnow p (fun _ => q)) (andthen F f) L s.
Proof.
  intros R H K n. specialize (R n). unfold cnow. destruct (p s n) as [[z j] [m|]]; [|apply H, R]. destruct R as [-> R].
  destruct F as [t r]. cbn [fst snd] in *. destruct r as [[]| | | |]; cbn [andthen snd fst bind] in *; try (split; auto; fail). subst z. apply K. reflexivity.
Qed.
Lemma c_throw e F L s : L s -> F = (s, Throw e) -> cends (cmay fails (Throw e)) F L s.
Proof. intros Ls -> n. unfold cmay. destruct (fails n); [exact Ls|]. split; reflexivity. Qed.
End Rules.

(** ** Loops over elements *)
Section Loops.
Context (fails : nat -> bool) {T : Type} (op : lop T) (opm : option T -> cstep T unit) (P R : T -> Prop) (fin btw : T -> T -> T -> Prop).
Hypothesis agrees : forall e o, P e -> R (rd e o) -> cends (opm o) (op e o) (btw e (rd e o)) e.
Hypothesis keeps : forall e o, P e -> R (rd e o) -> snd (op e o) = Ok tt -> P (fst (op e o)) /\ fin e (rd e o) (fst (op e o)).
Hypothesis starts : forall e y, P e -> R y -> btw e y e.

Section Body.
Context (body : nat -> cstep (list T) unit) (body' : nat -> list T -> outcome (list T)).
Fixpoint behaves (a : nat) (pre suf ys : list T) : Prop :=
  match suf, ys with
  | [], [] => True
  | e :: suf', y :: ys' =>
      exists o, rd e o = y /\ P e /\ R y /\
      cends (body a) (pre ++ fst (op e o) :: suf', snd (op e o)) (fun z => exists w, btw e y w /\ z = pre ++ w :: suf') (pre ++ e :: suf') /\
      body' a (pre ++ e :: suf') = (pre ++ fst (op e o) :: suf', snd (op e o)) /\
      (snd (op e o) = Ok tt -> behaves (S a) (pre ++ [fst (op e o)]) suf' ys')
  | _, _ => False
  end.
Lemma loop_ends suf : forall a pre ys, behaves a pre suf ys ->
  cends (for_m (length suf) a body) (for_ (length suf) a body' (pre ++ suf)) (fun z => exists w, partly fin btw suf ys w /\ z = pre ++ w) (pre ++ suf).
Proof.
  induction suf as [|e suf IH]; intros a pre [|y ys] H; cbn [behaves] in H; try contradiction; cbn [length for_m for_].
  - intros n. split; reflexivity.
  - destruct H as (o & Ey & Pe & Py & C & E & K). rewrite E. eapply c_bind; [exact C| |].
    + intros z (w & Hw & ->). exists (w :: suf). split; [constructor; exact Hw|reflexivity].
    + cbn [fst snd]. intros Eo. subst y. destruct (keeps e o Pe Py Eo) as [Pf Ff].
      specialize (IH (S a) _ _ (K Eo)). rewrite <- app_assoc in IH. cbn [app] in IH. eapply c_weak; [exact IH|].
      intros z (w & Hw & ->). exists (fst (op e o) :: w). rewrite <- app_assoc. split; [constructor; auto|reflexivity].
Qed.
End Body.
Lemma replace_mid (pre suf : list T) e z : replace (pre ++ e :: suf) (length pre) z = pre ++ z :: suf.
Proof. induction pre; cbn; [reflexivity|]. rewrite IHpre. reflexivity. Qed.
Lemma nth_mid (pre suf : list T) e : nth_error (pre ++ e :: suf) (length pre) = Some e.
Proof. rewrite nth_error_app2, Nat.sub_diag by lia. reflexivity. Qed.
(** x[i] op= y *)
Lemma at_ends pre e suf o : P e -> R (rd e o) ->
  cends (at_m (length pre) (opm o)) (pre ++ fst (op e o) :: suf, snd (op e o)) (fun z => exists w, btw e (rd e o) w /\ z = pre ++ w :: suf) (pre ++ e :: suf).
Proof.
  intros Pe Py n. unfold at_m. rewrite nth_mid. pose proof (agrees e o Pe Py n) as A. destruct (opm o e n) as [[z j] [m|]]; rewrite replace_mid.
  - destruct A as [-> A]. cbn [fst snd] in *. split; [reflexivity|]. destruct (snd (op e o)); auto; rewrite A; reflexivity.
  - eauto.
Qed.
Lemma at_same pre e suf o : assign_at' op (pre ++ e :: suf) (length pre) o = (pre ++ fst (op e o) :: suf, snd (op e o)).
Proof. unfold assign_at', get_at. rewrite nth_mid. cbn [eval]. rewrite replace_mid. reflexivity. Qed.

Lemma vec_ends x y : Forall P x -> Forall R (rd x y) ->
  cends (vec_assign_m fails opm y) (vec_assign' op x y) (fun z => z = x \/ partly fin btw x (rd x y) z) x.
Proof.
  intros Px Py. apply c_here. unfold vec_assign'. destruct (Nat.eqb_spec (length x) (length (rd x y))) as [Len|]; cbn [negb].
  2:{ apply c_throw; auto. }
  assert (G : forall suf pre ys, Forall P suf -> Forall R ys -> length suf = length ys ->
     match y with Some y => exists p, length p = length pre /\ y = p ++ ys | None => suf = ys end ->
     behaves (fun i => d <~ chere ;; e <~ cmay fails (get_at (rd d y) i) ;; at_m i (opm (Some e)))
       (fun i d => eval d (get_at (rd d y) i) (fun e => assign_at' op d i (Some e))) (length pre) pre suf ys).
  { induction suf as [|e suf IH]; intros pre [|v ys] Ps Pys L H; try discriminate L; cbn [behaves]; [exact I|].
    apply Forall_cons_iff in Ps as [Pe Ps]. apply Forall_cons_iff in Pys as [Pv Pys]. exists (Some v). cbn [rd].
    assert (Eg : get_at (rd (pre ++ e :: suf) y) (length pre) = Ok v).
    { unfold get_at. destruct y as [y|]; cbn [rd].
      - destruct H as (p & Lp & ->). rewrite <- Lp, nth_mid. reflexivity.
      - rewrite nth_mid. congruence. }
    rewrite Eg. cbn [eval]. rewrite at_same. splits; auto.
    - apply c_here. rewrite Eg. change (pre ++ fst (op e (Some v)) :: suf, snd (op e (Some v))) with (eval (pre ++ e :: suf) (Ok v) (fun v => (pre ++ fst (op e (Some v)) :: suf, snd (op e (Some v))))). apply c_may; [exists e; auto|]. intros a [= <-]. apply (at_ends pre e suf (Some v)); auto.
    - intros _. replace (S (length pre)) with (length (pre ++ [fst (op e (Some v))])) by (rewrite app_length; cbn; lia).
      apply IH; auto. destruct y as [y|]; [|congruence].
      destruct H as (p & Lp & ->). exists (p ++ [v]). rewrite <- app_assoc, !app_length, Lp. split; reflexivity. }
  eapply c_weak; [apply (loop_ends _ _ x 0 [] (rd x y))|].
  - apply (G x []); auto. destruct y as [y|]; [exists []; auto|reflexivity].
  - intros z (w & Hw & ->). right. exact Hw.
Qed.
Lemma val_ends x v : Forall P x -> R v ->
  cends (scale_assign_m opm (Val v)) (scale_assign' op x (Val v)) (partly fin btw x (repeat v (length x))) x.
Proof.
  intros Px Pv. apply c_here. unfold scale_assign'. eapply c_weak; [apply (loop_ends _ _ x 0 [] (repeat v (length x)))|].
  - assert (G : forall suf pre, Forall P suf -> behaves (fun i => at_m i (opm (Some v))) (fun i d => assign_at' op d i (Some v)) (length pre) pre suf (repeat v (length suf))).
    { induction suf as [|e suf IH]; intros pre Ps; cbn [length repeat behaves]; [exact I|]. apply Forall_cons_iff in Ps as [Pe Ps].
      exists (Some v). cbn [rd]. rewrite at_same. splits; auto; [apply (at_ends pre e suf (Some v)); auto|].
      intros _. replace (S (length pre)) with (length (pre ++ [fst (op e (Some v))])) by (rewrite app_length; cbn; lia). apply IH, Ps. }
    apply (G x []), Px.
  - intros z (w & Hw & ->). exact Hw.
Qed.
Let own (k : nat) : nat -> cstep (list T) unit := fun i => if i =? k then at_m i (opm None) else d <~ chere ;; v <~ cjust (get_at d k) ;; at_m i (opm (Some v)).
Let own' (k : nat) : nat -> list T -> outcome (list T) := fun i d => if i =? k then assign_at' op d i None else eval d (get_at d k) (fun v => assign_at' op d i (Some v)).
(** the operand is not the element itself *)
Lemma other_behaves k pre e suf v : P e -> R v -> length pre <> k -> nth_error (pre ++ e :: suf) k = Some v ->
  cends (own k (length pre)) (pre ++ fst (op e (Some v)) :: suf, snd (op e (Some v))) (fun z => exists w, btw e v w /\ z = pre ++ w :: suf) (pre ++ e :: suf) /\
  own' k (length pre) (pre ++ e :: suf) = (pre ++ fst (op e (Some v)) :: suf, snd (op e (Some v))).
Proof.
  intros Pe Pv N E. unfold own, own', get_at. rewrite (proj2 (Nat.eqb_neq _ _) N). rewrite E. cbn [eval]. rewrite at_same. split; [|reflexivity].
  apply c_here. rewrite E. change (pre ++ fst (op e (Some v)) :: suf, snd (op e (Some v))) with (eval (pre ++ e :: suf) (Ok v) (fun v => (pre ++ fst (op e (Some v)) :: suf, snd (op e (Some v))))). apply c_just. intros a [= <-]. apply (at_ends pre e suf (Some v)); auto.
Qed.
Lemma after_behaves k v : R v -> forall suf pre, Forall P suf -> nth_error pre k = Some v -> behaves (own k) (own' k) (length pre) pre suf (repeat v (length suf)).
Proof.
  intros Pv. induction suf as [|e suf IH]; intros pre Ps E; cbn [length repeat behaves]; [exact I|]. apply Forall_cons_iff in Ps as [Pe Ps].
  assert (Lk : k < length pre) by (apply nth_error_Some; congruence).
  destruct (other_behaves k pre e suf v Pe Pv ltac:(lia)) as [C1 C2]; [rewrite nth_error_app1 by auto; exact E|].
  exists (Some v). splits; auto. intros _.
  replace (S (length pre)) with (length (pre ++ [fst (op e (Some v))])) by (rewrite app_length; cbn; lia). apply IH; auto. rewrite nth_error_app1 by auto. exact E.
Qed.
(** up to the k-th element and beyond *)
Lemma upto_behaves v m : P v -> R v -> (snd (op v None) = Ok tt -> R (fst (op v None))) -> forall a pre ys, Forall P (a ++ v :: m) ->
  (snd (op v None) = Ok tt -> ys = repeat (fst (op v None)) (length m)) ->
  behaves (own (length pre + length a)) (own' (length pre + length a)) (length pre) pre (a ++ v :: m) (repeat v (S (length a)) ++ ys).
Proof.
  intros Pv Rv Ro. induction a as [|e a IH]; intros pre ys Px Ey.
  - cbn [length app repeat behaves]. rewrite Nat.add_0_r. exists None. cbn [rd]. apply Forall_cons_iff in Px as [_ Px].
    unfold own, own'. rewrite Nat.eqb_refl, at_same. splits; auto; [apply (at_ends pre v m None); auto|]. intros Eo. fold (own (length pre)) (own' (length pre)).
    rewrite (Ey Eo).
    replace (S (length pre)) with (length (pre ++ [fst (op v None)])) at 1 by (rewrite app_length; cbn; lia). apply after_behaves; auto. apply nth_mid.
  - cbn [length app repeat behaves]. cbn [app] in Px. apply Forall_cons_iff in Px as [Pe Px].
    destruct (other_behaves (length pre + S (length a)) pre e (a ++ v :: m) v Pe Rv ltac:(lia)) as [C1 C2].
    { rewrite nth_error_app2 by lia. replace (length pre + S (length a) - length pre) with (S (length a)) by lia. cbn [nth_error]. apply nth_mid. }
    exists (Some v). splits; auto. intros _. specialize (IH (pre ++ [fst (op e (Some v))]) ys Px Ey). rewrite app_length in IH. cbn [length repeat app] in IH.
    replace (length pre + 1 + length a) with (length pre + S (length a)) in IH by lia. rewrite Nat.add_1_r in IH. exact IH.
Qed.
Lemma own_ends x k v : Forall P x -> nth_error x k = Some v -> R v -> (snd (op v None) = Ok tt -> R (fst (op v None))) ->
  cends (scale_assign_m opm (Elem k)) (scale_assign' op x (Elem k)) (partly_own fin btw x k v) x.
Proof.
  intros Px E Rv Ro. destruct (nth_error_split _ _ E) as (a & m & -> & <-). assert (Pv : P v) by (rewrite Forall_forall in Px; apply Px, in_elt).
  assert (G : forall ys, (snd (op v None) = Ok tt -> ys = repeat (fst (op v None)) (length m)) ->
     cends (scale_assign_m opm (Elem (length a))) (scale_assign' op (a ++ v :: m) (Elem (length a))) (partly fin btw (a ++ v :: m) (repeat v (S (length a)) ++ ys)) (a ++ v :: m)).
  { intros ys Ey. apply c_here. unfold scale_assign'. eapply c_weak; [apply (loop_ends _ _ (a ++ v :: m) 0 [] (repeat v (S (length a)) ++ ys))|].
    - apply (upto_behaves v m Pv Rv Ro a []); auto.
    - intros z (w & Hw & ->). exact Hw. }
  assert (D : snd (op v None) = Ok tt \/ snd (op v None) <> Ok tt) by (destruct (snd (op v None)) as [[]| | | |]; [left; reflexivity|right; discriminate..]).
  destruct D as [D|D].
  - eapply c_weak; [exact (G _ (fun _ => eq_refl))|]. intros z Hz. right. exists (fst (op v None)). split; [exact (proj2 (keeps v None Pv Rv D))|].
    rewrite app_length. cbn [length]. replace (length a + S (length m) - S (length a)) with (length m) by lia. exact Hz.
  - eapply c_weak; [apply (G []); intros C; congruence|]. intros z Hz. left. rewrite app_nil_r in Hz. exact Hz.
Qed.
End Loops.

(** ** Elements that are Ints *)
Section IntElements.
Context (fails : nat -> bool) (half : list Z -> list Z -> list Z).
Local Open Scope Z_scope.
(** an operator of Int leaves its operand as it was if it throws *)
Definition int_lop (m : Int -> option Int -> res Int) : lop Int := fun e o => match m e o with Ok r => (r, Ok tt) | r => (e, stopped r) end.
Lemma lop_assign m (x : list Int) i o : assign_at' (int_lop m) x i o = assign_at m x i o.
Proof.
  unfold assign_at', assign_at, get_at. destruct (nth_error x i) as [e|] eqn:E; cbn [eval bind]; [|reflexivity].
  assert (R : replace x i e = x). { revert i E. clear. induction x as [|a x IH]; intros [|i]; cbn; try discriminate; [congruence|]. intros E. rewrite IH; auto. }
  unfold int_lop. destruct (m e o); cbn [fst snd eval stopped bind]; rewrite ?R; reflexivity.
Qed.
Lemma lop_for n (b b' : nat -> list Int -> outcome (list Int)) : (forall i d, b i d = b' i d) -> forall a d, for_ n a b d = for_ n a b' d.
Proof. intros H. induction n as [|n IH]; intros a d; cbn [for_]; [reflexivity|]. rewrite H. destruct (b' a d) as [t [[]| | | |]]; cbn [andthen]; auto. Qed.
Lemma lop_vec m x y : vec_assign' (int_lop m) x y = vec_assign m x y.
Proof. unfold vec_assign', vec_assign. destruct (negb _); [reflexivity|]. apply lop_for. intros i d. destruct (get_at _ i); cbn [eval]; try reflexivity. apply lop_assign. Qed.
Lemma lop_scale m x a : scale_assign' (int_lop m) x a = scale_assign m x a.
Proof.
  unfold scale_assign', scale_assign. apply lop_for. intros i d. destruct a as [v|k]; [apply lop_assign|]. destruct (i =? k)%nat; [apply lop_assign|].
  destruct (get_at d k); cbn [eval]; try reflexivity. apply lop_assign.
Qed.
Lemma ends_cends p m L x o : ends p (m x o) L x -> cends p (int_lop m x o) L x.
Proof.
  intros E n. specialize (E n). unfold int_lop. destruct (p x n) as [[z j] [r|]]; [|exact E]. destruct E as [-> E]. destruct (m x o); cbn [fst snd bind stopped]; split; auto.
Qed.
Lemma lop_ok m x o : snd (int_lop m x o) = Ok tt -> m x o = Ok (fst (int_lop m x o)).
Proof. unfold int_lop. destruct (m x o); cbn [fst snd stopped bind]; auto; discriminate. Qed.

Lemma int_sum_vec (is_sub : bool) x y : Forall canonical x -> Forall canonical (rd x y) ->
  cends (vec_assign_m fails (if is_sub then sub_assign_m fails half else add_assign_m fails half) y)
    (vec_assign (if is_sub then sub_assign else add_assign) x y)
    (fun z => z = x \/ partly (int_finished (if is_sub then Z.sub else Z.add)) (int_sum_between half is_sub) x (rd x y) z) x.
Proof.
  intros Px Py. rewrite <- lop_vec. apply (vec_ends fails _ _ canonical canonical); auto.
  - intros e o Ce Cy. apply ends_cends. pose proof (sum_ends fails half is_sub e o Ce Cy) as H. destruct is_sub; exact H.
  - intros e o Ce Cy E. apply lop_ok in E. set (r := fst (int_lop _ e o)) in *.
    destruct (addsub_assign_ok is_sub e o) as (r' & E' & C & V); auto.
    { intros y' ->. cbn [rd] in Cy. auto. }
    assert (r = r') by (destruct is_sub; unfold sub_assign, add_assign in E; congruence). subst r'. split; [exact C|]. split; [auto|].
    destruct is_sub; exact V.
  - intros e y' _ _. left. reflexivity.
Qed.
Lemma int_product_elem e o : wf e -> wf (rd e o) -> cends (mul_assign_m fails half o) (int_lop mul_assign e o) (int_product_between half e (rd e o)) e.
Proof.
  intros We Wy. apply ends_cends. destruct (mul_assign_ok e o We) as (r & E & W & V & _). { intros y ->. exact Wy. }
  eapply ends_weak; [apply mul_ends|]. intros z [->|(r' & E' & H)]; exists r; [splits; auto; left; reflexivity|]. replace r' with r in H by congruence. auto.
Qed.
Lemma int_product_done e o : wf e -> wf (rd e o) -> snd (int_lop mul_assign e o) = Ok tt ->
  wf (fst (int_lop mul_assign e o)) /\ int_finished Z.mul e (rd e o) (fst (int_lop mul_assign e o)).
Proof.
  intros We Wy E. apply lop_ok in E. destruct (mul_assign_ok e o We) as (r & E' & W & V & _). { intros y ->. exact Wy. }
  set (r' := fst _) in *. replace r' with r by congruence. split; [exact W|]. split; auto.
Qed.
Lemma int_product_starts e y : wf e -> wf y -> int_product_between half e y e.
Proof.
  intros We Wy. destruct (mul_assign_ok e (Some y) We) as (r & _ & W & V & _). { intros y' [= <-]. exact Wy. } exists r. splits; auto. left. reflexivity.
Qed.
Lemma int_product_val x v : Forall wf x -> wf v ->
  cends (scale_assign_m (mul_assign_m fails half) (Val v)) (scale_assign mul_assign x (Val v))
    (partly (int_finished Z.mul) (int_product_between half) x (repeat v (length x))) x.
Proof. intros Px Pv. rewrite <- lop_scale. apply (val_ends _ _ wf wf); auto using int_product_elem, int_product_done, int_product_starts. Qed.
Lemma int_product_own x k v : Forall wf x -> nth_error x k = Some v ->
  cends (scale_assign_m (mul_assign_m fails half) (Elem k)) (scale_assign mul_assign x (Elem k))
    (partly_own (int_finished Z.mul) (int_product_between half) x k v) x.
Proof. intros Px Pv. assert (Wv : wf v) by (rewrite Forall_forall in Px; eapply Px, nth_error_In, Pv). rewrite <- lop_scale. apply (own_ends _ _ wf wf); auto using int_product_elem, int_product_done, int_product_starts. intros E. apply int_product_done; auto. Qed.

Lemma int_quotient_elem e o : wf e -> wf (rd e o) -> cends (div_assign_m fails o) (int_lop div_assign e o) (left_by_division e (rd e o)) e.
Proof. intros We Wy. apply ends_cends. apply division_ends; auto. Qed.
Lemma int_quotient_done e o : wf e -> wf (rd e o) -> snd (int_lop div_assign e o) = Ok tt ->
  wf (fst (int_lop div_assign e o)) /\ int_finished Z.quot e (rd e o) (fst (int_lop div_assign e o)).
Proof.
  intros We Wy E. apply lop_ok in E. set (r := fst _) in *. unfold div_assign in E.
  destruct (div_sound e (rd e o) We Wy) as [(q & Eq & Cq & _ & Vq)|[(_ & _ & E')|[_ E']]]; unfold op_div in *; try congruence.
  replace r with q by congruence. splits; auto; split; auto.
Qed.
Lemma int_quotient_starts e y : wf e -> wf y -> left_by_division e y e.
Proof. intros _ _. left. reflexivity. Qed.
Lemma int_quotient_val x v : Forall wf x -> wf v ->
  cends (scale_assign_m (div_assign_m fails) (Val v)) (scale_assign div_assign x (Val v))
    (partly (int_finished Z.quot) left_by_division x (repeat v (length x))) x.
Proof. intros Px Pv. rewrite <- lop_scale. apply (val_ends _ _ wf wf); auto using int_quotient_elem, int_quotient_done, int_quotient_starts. Qed.
Lemma int_quotient_own x k v : Forall wf x -> nth_error x k = Some v ->
  cends (scale_assign_m (div_assign_m fails) (Elem k)) (scale_assign div_assign x (Elem k))
    (partly_own (int_finished Z.quot) left_by_division x k v) x.
Proof. intros Px Pv. assert (Wv : wf v) by (rewrite Forall_forall in Px; eapply Px, nth_error_In, Pv). rewrite <- lop_scale. apply (own_ends _ _ wf wf); auto using int_quotient_elem, int_quotient_done, int_quotient_starts. intros E. apply int_quotient_done; auto. Qed.
End IntElements.

(** ** Elements that are fractions *)
Section FracElements.
Context (fails : nat -> bool) (half : list Z -> list Z -> list Z).
Local Open Scope Z_scope.
Lemma reads_ex v : exists t, reads v t.
Proof. destruct (canonical_exists v) as (t & C & V). exists t. split; auto. Qed.
Lemma frac_starts num den e y : frac_between half num den e y e.
Proof. unfold frac_between, left_top_bot. cbv zeta. edestruct reads_ex as (t & Ht). edestruct reads_ex as (b & Hb). exists t, b. splits; [exact Ht|exact Hb|]. left. split; [left|]; reflexivity. Qed.
Lemma leaves_done p t b : leaves p t b -> snd p = Ok tt -> reduced (fst p) /\ (Fval (fst p) == ratio t b)%Q.
Proof. intros [(_ & c & -> & R & V)|(_ & E)] H; [split; auto|congruence]. Qed.
Lemma red_parts f : reduced f -> canonical (top f) /\ canonical (bot f).
Proof. intros (A & B & _). auto. Qed.
Lemma red_bot f : reduced f -> val (bot f) <> 0.
Proof. intros (_ & _ & A & _). lia. Qed.
Lemma red_opt e o : reduced (rd e o) -> forall g, o = Some g -> reduced g.
Proof. intros H g ->. exact H. Qed.
Lemma frac_sum_vec (is_sub : bool) x y : Forall reduced x -> Forall reduced (rd x y) ->
  cends (vec_assign_m fails (Fm_addsub fails half (if is_sub then op_sub else op_add)) y)
    (vec_assign' (if is_sub then F_sub_assign else F_add_assign) x y)
    (fun z => z = x \/ partly (frac_finished (if is_sub then Qminus else Qplus))
       (frac_between half (fun a b c d => if is_sub then a * d - c * b else a * d + c * b) (fun _ b _ d => b * d)) x (rd x y) z) x.
Proof.
  intros Px Py. apply (vec_ends fails _ _ reduced reduced); auto using frac_starts.
  - intros e o Re Ry. apply red_parts in Re, Ry. destruct is_sub.
    + apply (sum_frac fails half op_sub Z.sub e o); auto. intros a b Ca Cb. apply op_sub_ok; auto.
    + apply (sum_frac fails half op_add Z.add e o); auto. intros a b Ca Cb. apply op_add_ok; auto.
  - intros e o Re Ry E. destruct is_sub.
    + destruct (leaves_done _ _ _ (F_sub_assign_leaves e o Re (red_opt e o Ry)) E) as [A B]. split; [exact A|]. split; [exact A|]. rewrite B. apply ratio_sub; apply red_bot; auto.
    + destruct (leaves_done _ _ _ (F_add_assign_leaves e o Re (red_opt e o Ry)) E) as [A B]. split; [exact A|]. split; [exact A|]. rewrite B. apply ratio_add; apply red_bot; auto.
Qed.
Lemma frac_product_elem e o : reduced e -> reduced (rd e o) ->
  cends (Fm_mul fails half o) (F_mul_assign e o) (frac_between half (fun a _ c _ => a * c) (fun _ b _ d => b * d) e (rd e o)) e.
Proof. intros Re Ry. apply red_parts in Re, Ry. exact (prod_frac fails half e o Re Ry). Qed.
Lemma frac_product_done e o : reduced e -> reduced (rd e o) -> snd (F_mul_assign e o) = Ok tt ->
  reduced (fst (F_mul_assign e o)) /\ frac_finished Qmult e (rd e o) (fst (F_mul_assign e o)).
Proof.
  intros Re Ry E. destruct (leaves_done _ _ _ (F_mul_assign_leaves e o Re (red_opt e o Ry)) E) as [A B]. split; [exact A|]. split; [exact A|]. rewrite B. apply ratio_mul; apply red_bot; auto.
Qed.
Lemma frac_product_val x v : Forall reduced x -> reduced v ->
  cends (scale_assign_m (Fm_mul fails half) (Val v)) (scale_assign' F_mul_assign x (Val v))
    (partly (frac_finished Qmult) (frac_between half (fun a _ c _ => a * c) (fun _ b _ d => b * d)) x (repeat v (length x))) x.
Proof. intros Px Pv. apply (val_ends _ _ reduced reduced); auto using frac_product_elem, frac_product_done, frac_starts. Qed.
Lemma frac_product_own x k v : Forall reduced x -> nth_error x k = Some v ->
  cends (scale_assign_m (Fm_mul fails half) (Elem k)) (scale_assign' F_mul_assign x (Elem k))
    (partly_own (frac_finished Qmult) (frac_between half (fun a _ c _ => a * c) (fun _ b _ d => b * d)) x k v) x.
Proof.
  intros Px Pv. assert (Rv : reduced v) by (rewrite Forall_forall in Px; eapply Px, nth_error_In, Pv).
  apply (own_ends _ _ reduced reduced); auto using frac_product_elem, frac_product_done, frac_starts. intros E. apply frac_product_done; auto.
Qed.
Let nz (f : Frac) : Prop := reduced f /\ ~ (Fval f == 0)%Q.
Lemma frac_quotient_elem e o : reduced e -> nz (rd e o) ->
  cends (Fm_div fails half o) (F_div_assign e o) (frac_between half (fun a _ _ d => a * d) (fun _ b c _ => b * c) e (rd e o)) e.
Proof. intros Re [Ry _]. apply red_parts in Re, Ry. exact (quot_frac fails half e o Re Ry). Qed.
Lemma frac_quotient_done e o : reduced e -> nz (rd e o) -> snd (F_div_assign e o) = Ok tt ->
  reduced (fst (F_div_assign e o)) /\ frac_finished Qdiv e (rd e o) (fst (F_div_assign e o)).
Proof.
  intros Re [Ry N] E. assert (Nz : val (top (rd e o)) <> 0). { intros Z. apply N. apply ratio_0; auto. apply red_bot, Ry. }
  destruct (leaves_done _ _ _ (F_div_assign_leaves e o Re (red_opt e o Ry) Nz) E) as [A B]. split; [exact A|]. split; [exact A|]. rewrite B. apply ratio_div; auto; apply red_bot; auto.
Qed.
Lemma frac_quotient_val x v : Forall reduced x -> reduced v -> ~ (Fval v == 0)%Q ->
  cends (scale_assign_m (Fm_div fails half) (Val v)) (scale_assign' F_div_assign x (Val v))
    (partly (frac_finished Qdiv) (frac_between half (fun a _ _ d => a * d) (fun _ b c _ => b * c)) x (repeat v (length x))) x.
Proof. intros Px Pv Nv. apply (val_ends _ _ reduced nz); auto using frac_quotient_elem, frac_quotient_done, frac_starts. split; auto. Qed.
Lemma frac_quotient_own x k v : Forall reduced x -> nth_error x k = Some v -> ~ (Fval v == 0)%Q ->
  cends (scale_assign_m (Fm_div fails half) (Elem k)) (scale_assign' F_div_assign x (Elem k))
    (partly_own (frac_finished Qdiv) (frac_between half (fun a _ _ d => a * d) (fun _ b c _ => b * c)) x k v) x.
Proof.
  intros Px Pv Nv. assert (Rv : reduced v) by (rewrite Forall_forall in Px; eapply Px, nth_error_In, Pv).
  apply (own_ends _ _ reduced nz); auto using frac_quotient_elem, frac_quotient_done, frac_starts; [split; auto|].
  intros E. destruct (frac_quotient_done v None Rv (conj Rv Nv) E) as [A [_ B]]. cbn [rd] in B. split; [exact A|]. rewrite B.
  intros H. assert (C : (Fval v / Fval v == 1)%Q) by (field; exact Nv). rewrite C in H. discriminate H.
Qed.
End FracElements.

(** ** Matrices as vectors of their entries, row by row *)
Section Flat.
Context (fails : nat -> bool) {T : Type} (r c : nat).
Definition lift_mat {A} (q : list T * nat * A) : Mat T * nat * A := let '(z, n, e) := q in (mat r c z, n, e).
Definition flat (p : cstep (Mat T) unit) (q : cstep (list T) unit) : Prop := forall l n, p (mat r c l) n = lift_mat (q l n).
Lemma flat_now p q p' q' : flat p q -> flat p' q' -> flat (cnow p (fun _ => p')) (cnow q (fun _ => q')).
Proof. intros H H' l n. unfold cnow. rewrite H. destruct (q l n) as [[z j] [[[]| | | |]|]]; cbn; auto. Qed.
Lemma cnow_here {S B} (k : S -> cstep S B) s n : cnow chere k s n = k s s n.
Proof. reflexivity. Qed.
Lemma for_m_app {S} n : forall m a (b : nat -> cstep S unit) s j, for_m (n + m) a b s j = cnow (for_m n a b) (fun _ => for_m m (a + n) b) s j.
Proof.
  induction n as [|n IH]; intros m a b s j; cbn [for_m Nat.add]; [rewrite Nat.add_0_r; reflexivity|].
  unfold cnow in *. destruct (b a s j) as [[t i] [[[]| | | |]|]]; auto. rewrite IH. replace (a + Datatypes.S n) with (Datatypes.S a + n) by lia. reflexivity.
Qed.
Lemma for_m_flat n : forall a a' b (g : nat -> cstep (list T) unit), (forall i, i < n -> flat (b (a + i)) (g (a' + i))) -> flat (for_m n a b) (for_m n a' g).
Proof.
  induction n as [|n IH]; intros a a' b g H; cbn [for_m]; [intros l j; reflexivity|]. apply flat_now.
  - specialize (H 0 ltac:(lia)). rewrite !Nat.add_0_r in H. exact H.
  - apply IH. intros i Hi. specialize (H (S i) ltac:(lia)). rewrite !Nat.add_succ_r in H. exact H.
Qed.
Lemma for2_m_flat b (g : nat -> cstep (list T) unit) : (forall i j, j < c -> flat (b i j) (g (i * c + j))) -> flat (for2_m r c b) (for_m (r * c) 0 g).
Proof.
  intros H. unfold for2_m. assert (G : forall m a, flat (for_m m a (fun i => for_m c 0 (b i))) (for_m (m * c) (a * c) g)).
  { induction m as [|m IH]; intros a; [intros l j; reflexivity|]. cbn [for_m Nat.mul]. intros l j. rewrite for_m_app. apply flat_now.
    - apply for_m_flat. intros i Hi. apply H, Hi.
    - specialize (IH (S a)). cbn [Nat.mul] in IH. rewrite Nat.add_comm in IH. exact IH. }
  apply (G r 0).
Qed.
Lemma flat_here p q : (forall l, flat (p (mat r c l)) (q l)) -> flat (cnow chere p) (cnow chere q).
Proof. intros H l n. apply H. Qed.
Lemma flat_just {A} (m : res A) p q : (forall a, flat (p a) (q a)) -> flat (cnow (cjust m) p) (cnow (cjust m) q).
Proof. intros H l n. unfold cnow, cjust. destruct m; try reflexivity. apply H. Qed.
Lemma flat_may {A} (m : res A) p q : (forall a, flat (p a) (q a)) -> flat (cnow (cmay fails m) p) (cnow (cmay fails m) q).
Proof. intros H l n. unfold cnow, cmay. destruct (fails n); [reflexivity|]. destruct m; try reflexivity. apply H. Qed.
Lemma entry_m_flat (p : cstep T unit) i j : flat (entry_m i j p) (at_m (i * c + j) p).
Proof.
  intros l n. unfold entry_m, at_m, cnow, chere, cjust. rewrite entry_flat. unfold get_at. destruct (nth_error l (i * c + j)) as [e|] eqn:E; [|reflexivity].
  destruct (p e n) as [[z k] u]. rewrite set_flat. assert (Lt : i * c + j < length l) by (apply nth_error_Some; congruence). apply Nat.ltb_lt in Lt. rewrite Lt. reflexivity.
Qed.
Lemma mat_vec_flat opm l y n : length l = r * c -> (forall l', y = Some l' -> length l' = r * c) ->
  mat_assign_m fails opm (option_map (mat r c) y) (mat r c l) n = lift_mat (vec_assign_m fails opm y l n).
Proof.
  intros L Ly. unfold mat_assign_m, vec_assign_m. rewrite !cnow_here.
  assert (D : same_dims (mat r c l) (rd (mat r c l) (option_map (mat r c) y)) = true) by (unfold same_dims; destruct y; cbn; rewrite !Nat.eqb_refl; reflexivity).
  rewrite D. assert (E : (length l =? length (rd l y)) = true) by (destruct y; cbn [rd]; rewrite ?(Ly _ eq_refl), ?L; apply Nat.eqb_refl). rewrite E. cbn [negb mat rows cols]. rewrite L.
  apply for2_m_flat. intros i j Hj. apply flat_here. intros l'.
  replace (entry (rd (mat r c l') (option_map (mat r c) y)) i j) with (get_at (rd l' y) (i * c + j)) by (destruct y; cbn [option_map rd]; symmetry; apply entry_flat).
  apply flat_may. intros e. apply entry_m_flat.
Qed.
Lemma mat_scale_flat_m (opm : option T -> cstep T unit) l s n : length l = r * c -> scalar_in c s ->
  mat_scale_assign_m opm s (mat r c l) n = lift_mat (scale_assign_m opm (flat_scalar c s) l n).
Proof.
  intros L Hs. unfold mat_scale_assign_m, scale_assign_m. rewrite !cnow_here. cbn [mat rows cols]. rewrite L.
  apply for2_m_flat. intros i j Hj. destruct s as [a|p q]; cbn [flat_scalar]; [apply entry_m_flat|]. cbn in Hs. rewrite (own_index c) by auto.
  destruct (_ =? _); [apply entry_m_flat|]. apply flat_here. intros l'. rewrite entry_flat. apply flat_just. intros e. apply entry_m_flat.
Qed.
End Flat.

(** ** Terms and polynomials *)
Section Polys.
Context (fails : nat -> bool) (half : list Z -> list Z -> list Z).
Local Open Scope Z_scope.
Lemma spec_times t l z : append_spec t l z -> times_all t l z.
Proof.
  intros (A & B & C & D & _). split; [exact A|]. split; [exact B|]. split; [exact C|]. intros k. rewrite (D k), in_map_iff. split; (intros [H|(f & H1 & H2)]; [left; exact H|right; exists f; auto]).
Qed.
Lemma replace_split {A} (l : list A) i e : nth_error l i = Some e -> exists a b, l = a ++ e :: b /\ forall z, replace l i z = a ++ z :: b.
Proof. intros E. destruct (nth_error_split _ _ E) as (a & b & -> & <-). exists a, b. split; [reflexivity|]. intros z. apply replace_mid. Qed.
Lemma factor_ends t x (same : bool) : map_ok (factors t) -> factor_ok x -> (same = true -> In (fid x, x) (factors t)) ->
  cends (appendFactor_m fails half x same) (appendFactor t x same) (left_by_factor half t x) t.
Proof.
  intros Hm Hx Hs. apply c_here. unfold appendFactor. destruct (map_find (factors t) (fid x)) as [i|] eqn:E.
  - destruct (map_find_Some _ _ _ E) as (f & Hf). destruct (map_ok_nth _ _ _ Hm Hf) as [Hid Hok]. cbn [fst snd] in Hid, Hok.
    unfold get_at. rewrite Hf. cbn [eval fst snd]. set (o := if same then None else Some (power x)).
    assert (Ro : rd (power f) o = power x).
    { unfold o. destruct same; [|reflexivity]. cbn [rd]. destruct (In_nth_error _ _ (Hs eq_refl)) as (j & Hj).
      pose proof (map_find_key _ _ _ _ Hm Hj) as Ej. rewrite E in Ej. injection Ej as <-. rewrite Hf in Hj. injection Hj as ->. reflexivity. }
    pose proof (sum_ends fails half false (power f) o) as S. cbn zeta in S. rewrite Ro in S. specialize (S Hok Hx). rewrite Bool.xorb_false_l in S. change (addsub_assign 3 false (power f) o) with (add_assign (power f) o) in S.
    assert (Ep : exists p, add_assign (power f) o = Ok p).
    { destruct (addsub_assign_ok false (power f) o) as (p & Ep & _); auto. { intros y Ey. rewrite Ey in Ro. cbn [rd] in Ro. subst y. auto. } exists p. exact Ep. }
    destruct Ep as (p & Ep). rewrite Ep in *. cbn [eval]. destruct (replace_split _ _ _ Hf) as (a & b & El & Er). rewrite Er.
    intros n. specialize (S n). unfold on_power. rewrite Hf. change (addsub_m fails half 3 false o) with (add_assign_m fails half o) in S. fold o.
    destruct (add_assign_m fails half o (power f) n) as [[z j] [m|]]; rewrite Er.
    + destruct S as [-> ->]. cbn [bind snd fst done]. split; reflexivity.
    + right. exists a, f, b, z. auto.
  - intros n. unfold cnow, cmay, cput. destruct (fails n); [left; reflexivity|]. split; reflexivity.
Qed.
Definition some_factors t (l : list Factor) z : Prop := exists l1 f l2 t1, l = l1 ++ f :: l2 /\ times_all t l1 t1 /\ left_by_factor half t1 f z.
Lemma times_nil t : map_ok (factors t) -> times_all t [] t.
Proof. intros H. apply spec_times, append_spec_refl, H. Qed.
Lemma times_cons t x t1 l t2 : append_spec t [x] t1 -> times_all t1 l t2 -> times_all t (x :: l) t2.
Proof.
  intros (A & B & C & D & _) (A' & B' & C' & D'). split; [congruence|]. split; [exact B'|]. split.
  - intros k. rewrite C', C, !total_cons. change (total [] k) with 0. lia.
  - intros k. rewrite D', D. cbn [map In]. split; [intros [[H|(f & [<-|[]] & <-)]|H]; auto|]. intros [H|[H|H]]; auto. left. right. exists x. split; [left; reflexivity|exact H].
Qed.
Lemma some_cons t x t1 l z : append_spec t [x] t1 -> some_factors t1 l z -> some_factors t (x :: l) z.
Proof. intros A (l1 & f & l2 & t2 & -> & B & C). exists (x :: l1), f, l2, t2. split; [reflexivity|]. split; [eapply times_cons; eauto|exact C]. Qed.
Lemma factors_ends l : forall t, map_ok (factors t) -> Forall factor_ok l -> cends (appendFactors_m fails half l) (appendFactors t l) (some_factors t l) t.
Proof.
  induction l as [|x l IH]; intros t Hm Hl; cbn [appendFactors_m appendFactors]; [intros n; split; reflexivity|].
  apply Forall_cons_iff in Hl as [Hx Hl]. destruct (appendFactor_ok t x Hm Hx) as (t1 & E & S1).
  eapply c_bind; [apply factor_ends; auto; discriminate| |].
  - intros z Hz. exists [], x, l, t. split; [reflexivity|]. split; [apply times_nil, Hm|exact Hz].
  - intros _. rewrite E. cbn [fst]. eapply c_weak; [apply IH; auto; apply S1|]. intros z. apply some_cons, S1.
Qed.
Lemma own_factors_ends fuel : forall i t, map_ok (factors t) ->
  cends (append_own_m fails half fuel i) (append_own fuel i t) (some_factors t (map snd (skipn i (factors t)))) t.
Proof.
  induction fuel as [|fuel IH]; intros i t Hm; cbn [append_own_m append_own]; [intros n; split; [reflexivity|exact I]|]. apply c_here.
  destruct (nth_error (factors t) i) as [e|] eqn:E; [|intros n; split; reflexivity].
  destruct (append_same t i e Hm E) as [E1 (f' & E2)]. pose proof (map_ok_nth _ _ _ Hm E) as [Hid Hok].
  destruct (appendFactor_ok t (snd e) Hm Hok) as (t1 & E3 & S1). rewrite <- E1 in E3.
  rewrite (skipn_nth _ _ _ E). cbn [map]. eapply c_bind; [apply factor_ends; auto| |].
  - intros _. rewrite Hid. destruct e. eapply nth_error_In, E.
  - intros z Hz. exists [], (snd e), (map snd (skipn (S i) (factors t))), t. split; [reflexivity|]. split; [apply times_nil, Hm|exact Hz].
  - intros _. rewrite E3 in *. cbn [fst] in *. eapply c_weak; [apply IH; apply S1|]. intros z Hz. eapply some_cons; [exact S1|].
    replace (skipn (S i) (factors t)) with (skipn (S i) (factors t1)) by (rewrite E2; cbn [factors]; apply skipn_replace). exact Hz.
Qed.
Lemma coeff_ends p F L t : cends p F L (coeff t) -> cends (on_coeff_m p) (on_coeff t F) (fun z => factors z = factors t /\ L (coeff z)) t.
Proof.
  intros H n. specialize (H n). unfold on_coeff_m, on_coeff. destruct (p (coeff t) n) as [[z j] [m|]]; cbn [fst snd factors coeff]; [|auto].
  destruct H as [-> H]. split; [reflexivity|]. destruct (snd F); auto; rewrite H; reflexivity.
Qed.
Lemma product_ends t o : term_ok t -> term_ok (rd t o) ->
  cends (term_mul_assign_m fails half o) (term_mul_assign t o) (left_by_product half t (rd t o)) t.
Proof.
  intros [Rt Mt] [Ry My]. unfold term_mul_assign_m, term_mul_assign. destruct o as [y|]; cbn [rd] in *.
  - pose proof (map_ok_factors _ My) as Ok_y. destruct (appendFactors_ok _ t Mt Ok_y) as (t1 & E & S1).
    eapply c_bind; [apply factors_ends; auto|intros z Hz; left; exact Hz|]. intros _. rewrite E. cbn [fst].
    destruct (spec_times _ _ _ S1) as (A & _). eapply c_weak; [apply coeff_ends; rewrite A; apply (frac_product_elem fails half (coeff t) (Some (coeff y))); auto|].
    intros z [Fz Hz]. right. exists t1. split; [apply spec_times, S1|]. split; [exact Fz|exact Hz].
  - apply c_here. destruct (append_own_ok (S (length (factors t))) 0 t Mt ltac:(lia) ltac:(lia)) as (t1 & E & S1). cbn [skipn] in S1.
    eapply c_bind; [apply own_factors_ends; auto|intros z Hz; left; exact Hz|]. intros _. rewrite E. cbn [fst].
    destruct (spec_times _ _ _ S1) as (A & _). eapply c_weak; [apply coeff_ends; rewrite A; apply (frac_product_elem fails half (coeff t) None); auto|].
    intros z [Fz Hz]. right. exists t1. split; [apply spec_times, S1|]. split; [exact Fz|exact Hz].
Qed.
Lemma append_ends p x : poly_ok p -> term_ok x -> cends (appendTerm_m fails half x) (appendTerm p x) (left_by_append half p x) p.
Proof.
  intros Hp Hx. apply c_here. unfold appendTerm. apply c_just. intros [a b] E. cbn [fst snd].
  destruct (find_place_ok p x Hp Hx) as (a' & b' & E' & Ep & _). rewrite E in E'. injection E' as <- <-.
  destruct b as [|t b]; [intros n; split; [reflexivity|exact I]|].
  assert (Ht : term_ok t). { unfold poly_ok in Hp. rewrite Ep in Hp. apply Forall_app in Hp as [_ Hp]. inversion Hp; auto. }
  apply c_just. intros e Ee. destruct e.
  - destruct (term_eq_ok t x) as (e & Ee' & He); [apply Ht|apply Hx|]. assert (Ff : factors t = factors x) by (apply He; congruence).
    pose proof (sum_frac fails half op_add Z.add (coeff t) (Some (coeff x)) ltac:(intros u v Cu Cv; apply op_add_ok; auto) (red_parts _ (proj1 Ht)) (red_parts _ (proj1 Hx))) as S. cbn [rd] in S.
    pose proof (coeff_ends _ _ _ t S) as C. intros n. specialize (C n). unfold on_term, at_m. rewrite Ep, nth_mid. unfold F_add_assign.
    destruct (on_coeff_m _ t n) as [[z j] [m|]]; rewrite replace_mid; cbn [fst snd] in *.
    + destruct C as [-> C]. unfold on_coeff in *. destruct (F_addsub_assign op_add (coeff t) (Some (coeff x))) as [c r]. cbn [fst snd] in *. split; [reflexivity|].
      destruct r; auto; rewrite C; reflexivity.
    + destruct C as [Fz Hz]. right. exists a, t, b, (coeff z). splits; auto. rewrite <- Fz. destruct z; reflexivity.
  - intros n. unfold cnow, cmay, cput. destruct (fails n); [left; reflexivity|]. split; reflexivity.
Qed.
Lemma poly_sum_ends p y : poly_ok p -> factor_ok y -> exists x, single 1 y x /\
  cends (poly_add_assign_m fails half y) (poly_add_assign p y) (left_by_append half p x) p.
Proof.
  intros Hp Hy. destruct (Term_of_factor_ok y Hy) as (x & E & S). exists x. split; [exact S|]. unfold poly_add_assign_m, poly_add_assign.
  apply c_may; [left; reflexivity|]. intros a Ea. replace a with x by congruence. apply append_ends; auto. apply S.
Qed.
Lemma poly_difference_ends p y : poly_ok p -> factor_ok y -> exists x, single (-1) y x /\
  cends (poly_sub_assign_m fails half y) (poly_sub_assign p y) (left_by_append half p x) p.
Proof.
  intros Hp Hy. assert (M : exists x, minus_factor y = Ok x /\ single (-1) y x).
  { unfold minus_factor. destruct (Frac_of_int_ok (-1)) as (c & -> & Rc & Vc); [unfold INT32_MIN, INT32_MAX; lia|]. cbn [bind].
    destruct (Term_of_ok c y Rc Hy) as [-> Ht]. eexists. split; [reflexivity|]. split; [exact Ht|]. split; [exact Vc|reflexivity]. }
  destruct M as (x & E & S). exists x. split; [exact S|]. unfold poly_sub_assign_m, poly_sub_assign.
  apply c_may; [left; reflexivity|]. intros a Ea. replace a with x by congruence. apply append_ends; auto. apply S.
Qed.
Lemma merge_ends p l : cends (appendTerms_m fails l) (eval p (appendTerms p l) done) (fun z => z = p) p.
Proof.
  intros n. unfold appendTerms_m, cnow, cmay, chere, cjust, cput. destruct (fails n); [reflexivity|]. destruct (appendTerms p l); cbn [eval done fst snd bind]; auto.
Qed.
Lemma negate_ends t : term_ok t -> cends (negate_term_m fails half) (negate_term t) (fun z => factors z = factors t /\ (z = t \/ left_top half (coeff t) (- val (top (coeff t))) (coeff z))) t.
Proof.
  intros [Rt Mt]. unfold negate_term_m, negate_term. apply c_may; [auto|]. intros m Em.
  assert (C : canonical m /\ val m = -1). { vm_compute in Em. injection Em as <-. split; [apply canonicalb_spec; reflexivity|reflexivity]. }
  destruct C as [Cm Vm]. eapply c_weak; [apply coeff_ends; apply (int_prod_frac fails half (coeff t) m (red_parts _ Rt) Cm)|].
  intros z [Fz Hz]. rewrite Vm in Hz. split; [exact Fz|]. right. replace (- val (top (coeff t))) with (val (top (coeff t)) * -1) by lia. exact Hz.
Qed.
End Polys.
Lemma partly_length {T} (f b : T -> T -> T -> Prop) x ys z : partly f b x ys z -> length z = length x.
Proof. induction 1; cbn; congruence. Qed.
