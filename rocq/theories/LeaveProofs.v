(** Proofs about LeaveModel. *)
From Coq Require Import QArith.
From Verif Require Import Base IntModel IntSpec IOModel FracModel FracSpec ElemModel VecModel MatModel ElemSpec ElemProofs MatSpec MatProofs ExtSpec ExtProofs LeaveModel LeaveSpec.
Local Open Scope list_scope.
Local Open Scope nat_scope.

(** *** Against VecModel *)
Section Same.
Context {T : Type} (op : lop T).
Let op' (e : T) (y : option T) : res T := final (op e y).

Lemma same_refl (p : outcome (list T)) : same_but op p p.
Proof. split; auto. Qed.
Lemma same_eval {A} x (m : res A) k k' : (forall a, same_but op (k a) (k' a)) -> same_but op (eval x m k) (eval x m k').
Proof. intros H. destruct m; cbn; auto using same_refl. Qed.
Lemma same_assign x i y : same_but op (assign_at' op x i y) (assign_at op' x i y).
Proof.
  unfold assign_at', assign_at, get_at. destruct (nth_error x i) as [e|] eqn:E; [|apply same_refl]. cbn [eval bind].
  assert (L : i < length x) by (apply nth_error_Some; congruence).
  unfold op', final. destruct (op e y) as [z r] eqn:Eop. cbn [fst snd].
  assert (G : r <> Ok tt -> same_but op (replace x i z, r) (x, r)).
  { intros N. split; [reflexivity|]. right. exists i, e, y. rewrite Eop. cbn [fst snd].
    split; [exact E|]. split; [reflexivity|]. split; [exact N|]. split; [apply nth_replace_eq; auto|]. split; [apply length_replace|].
    intros j Hj. apply nth_replace_ne. auto. }
  destruct r as [[]| | | |]; cbn; [split; auto|apply G; discriminate..].
Qed.
Lemma same_for n : forall a b' b (d : list T), (forall i d, same_but op (b' i d) (b i d)) -> same_but op (for_ n a b' d) (for_ n a b d).
Proof.
  induction n as [|n IH]; intros a b' b d H; cbn [for_]; [apply same_refl|].
  destruct (H a d) as [E F]. destruct (b' a d) as [d1 r1], (b a d) as [d2 r2]. cbn [fst snd] in E, F. subst r2.
  destruct r1 as [[]| | | |]; cbn [andthen]; try (split; auto; fail).
  destruct F as [->|(k & e & y & _ & _ & N & _)]; [apply IH; auto|congruence].
Qed.
Lemma vec_same x y : same_but op (vec_assign' op x y) (vec_assign op' x y).
Proof.
  unfold vec_assign', vec_assign. destruct (negb _); [apply same_refl|]. apply same_for. intros i d. apply same_eval. intros e. apply same_assign.
Qed.
Lemma scale_same x a : same_but op (scale_assign' op x a) (scale_assign op' x a).
Proof.
  unfold scale_assign', scale_assign. apply same_for. intros i d. destruct a as [v|k]; [apply same_assign|].
  destruct (i =? k); [apply same_assign|]. apply same_eval. intros v. apply same_assign.
Qed.
End Same.

(** *** Matrices as vectors of their entries, row by row *)
Lemma for_app {S} n : forall m a (b : nat -> S -> outcome S) s, for_ (n + m) a b s = andthen (for_ n a b s) (for_ m (a + n) b).
Proof.
  induction n as [|n IH]; intros m a b s; cbn [for_ Nat.add]; [rewrite Nat.add_0_r; reflexivity|].
  destruct (b a s) as [t [[]| | | |]]; cbn [andthen]; auto. rewrite IH. do 2 f_equal. lia.
Qed.
Lemma for_ext {S} n : forall a a' (b b' : nat -> S -> outcome S) s, (forall i s, i < n -> b (a + i) s = b' (a' + i) s) -> for_ n a b s = for_ n a' b' s.
Proof.
  induction n as [|n IH]; intros a a' b b' s H; cbn [for_]; [reflexivity|].
  pose proof (H 0 s ltac:(lia)) as E. rewrite !Nat.add_0_r in E. rewrite E. destruct (b' a' s) as [t [[]| | | |]]; cbn [andthen]; auto.
  apply IH. intros i u Hi. specialize (H (Datatypes.S i) u ltac:(lia)). rewrite !Nat.add_succ_r in H. exact H.
Qed.
Lemma for2_flat {S} c (b : nat -> nat -> S -> outcome S) (g : nat -> S -> outcome S) r : forall a s,
  (forall i j s, j < c -> b i j s = g (i * c + j) s) -> for_ r a (fun i => for_ c 0 (fun j => b i j)) s = for_ (r * c) (a * c) g s.
Proof.
  induction r as [|r IH]; intros a s H; cbn [for_ Nat.mul]; [reflexivity|]. rewrite for_app.
  rewrite (for_ext c 0 (a * c) (fun j => b a j) g) by (intros i u Hi; apply H; lia).
  destruct (for_ c (a * c) g s) as [t [[]| | | |]]; cbn [andthen]; auto. rewrite IH by auto. f_equal. lia.
Qed.

Section Flat.
Context {T : Type}.
Variables r c : nat.
Implicit Type l : list T.
Lemma entry_flat l i j : entry (mat r c l) i j = get_at l (i * c + j).
Proof. unfold entry, read, offset, get_at, mat. cbn [data cols]. rewrite nth_error_map. destruct (nth_error l _); reflexivity. Qed.
Lemma map_replace {A B} (f : A -> B) (l : list A) i x : map f (replace l i x) = replace (map f l) i (f x).
Proof. revert i. induction l as [|y l IH]; intros [|i]; cbn; f_equal; auto. Qed.
Lemma set_flat l i j x : set_entry (mat r c l) i j x = if i * c + j <? length l then done (mat r c (replace l (i * c + j) x)) else (mat r c l, UB).
Proof.
  unfold set_entry, offset, mat. cbn [rows cols data]. rewrite map_length.
  destruct (_ <? _); [|reflexivity]. rewrite map_replace. reflexivity.
Qed.
Lemma get_at_bound {A} (l : list A) k e : get_at l k = Ok e -> (k <? length l) = true.
Proof. unfold get_at. destruct (nth_error l k) eqn:E; [|discriminate]. intros _. apply Nat.ltb_lt, nth_error_Some. congruence. Qed.
Lemma assign_entry_flat op l i j y : assign_entry op (mat r c l) i j y = as_mat r c (assign_at op l (i * c + j) y).
Proof.
  unfold assign_entry, assign_at. rewrite entry_flat. destruct (get_at l (i * c + j)) as [e| | | |] eqn:E; cbn [bind eval]; try reflexivity.
  destruct (op e y); cbn [eval]; try reflexivity. rewrite set_flat, (get_at_bound _ _ _ E). reflexivity.
Qed.
Lemma assign_entry_flat' (op : lop T) l i j y : assign_entry' op (mat r c l) i j y = as_mat r c (assign_at' op l (i * c + j) y).
Proof.
  unfold assign_entry', assign_at'. rewrite entry_flat. destruct (get_at l (i * c + j)) as [e| | | |] eqn:E; cbn [bind eval]; try reflexivity.
  rewrite set_flat, (get_at_bound _ _ _ E). reflexivity.
Qed.
(** a loop over matrices that is a loop over lists *)
Lemma for_flat n : forall a (b : nat -> Mat T -> outcome (Mat T)) g l, (forall i l, b i (mat r c l) = as_mat r c (g i l)) ->
  for_ n a b (mat r c l) = as_mat r c (for_ n a g l).
Proof.
  induction n as [|n IH]; intros a b g l H; cbn [for_]; [reflexivity|]. rewrite H.
  destruct (g a l) as [t [[]| | | |]]; cbn [andthen as_mat fst snd]; auto.
Qed.
Lemma for2_mat b g l : (forall i j l, j < c -> b i j (mat r c l) = as_mat r c (g (i * c + j) l)) ->
  for2 r c b (mat r c l) = as_mat r c (for_ (r * c) 0 g l).
Proof.
  intros H. unfold for2. transitivity (for_ r 0 (fun i => for_ c 0 (fun j => b i j)) (mat r c l)); [reflexivity|].
  assert (G : forall n a l, for_ n a (fun i => for_ c 0 (fun j => b i j)) (mat r c l) = as_mat r c (for_ n a (fun i => for_ c 0 (fun j => g (i * c + j))) l)).
  { intros n a l'. apply for_flat. intros i l''.
    assert (K : forall m k l, k + m <= c -> for_ m k (fun j => b i j) (mat r c l) = as_mat r c (for_ m k (fun j => g (i * c + j)) l)).
    { induction m as [|m IH]; intros k l0 Hk; cbn [for_]; [reflexivity|]. rewrite H by lia.
      destruct (g (i * c + k) l0) as [t [[]| | | |]]; cbn [andthen as_mat fst snd]; auto. apply IH. lia. }
    apply K. lia. }
  rewrite G, (for2_flat c (fun i j => g (i * c + j)) g r 0) by reflexivity. reflexivity.
Qed.
End Flat.

Lemma own_index c i j p q : j < c -> q < c -> (i =? p) && (j =? q) = (i * c + j =? p * c + q).
Proof.
  intros Hj Hq. apply Bool.eq_iff_eq_true. rewrite Bool.andb_true_iff, !Nat.eqb_eq. split; [intros [-> ->]; reflexivity|].
  intros E. destruct (offset_inj c i j p q); auto.
Qed.
Lemma mat_scale_flat {T} op r c (l : list T) s : length l = r * c -> scalar_in c s ->
  mat_scale_assign op (mat r c l) s = as_mat r c (scale_assign op l (flat_scalar c s)).
Proof.
  intros L Hs. unfold mat_scale_assign, scale_assign. cbn [mat rows cols]. fold (mat r c l). rewrite L. apply for2_mat. intros i j l' Hj.
  destruct s as [a|p q]; cbn [flat_scalar]; [apply assign_entry_flat|]. cbn in Hs. rewrite (own_index c) by auto.
  destruct (_ =? _); [apply assign_entry_flat|]. rewrite entry_flat. destruct (get_at l' _); cbn [eval]; try reflexivity. apply assign_entry_flat.
Qed.
Lemma mat_scale_flat' {T} (op : lop T) r c (l : list T) s : length l = r * c -> scalar_in c s ->
  mat_scale_assign' op (mat r c l) s = as_mat r c (scale_assign' op l (flat_scalar c s)).
Proof.
  intros L Hs. unfold mat_scale_assign', scale_assign'. cbn [mat rows cols]. fold (mat r c l). rewrite L. apply for2_mat. intros i j l' Hj.
  destruct s as [a|p q]; cbn [flat_scalar]; [apply assign_entry_flat'|]. cbn in Hs. rewrite (own_index c) by auto.
  destruct (_ =? _); [apply assign_entry_flat'|]. rewrite entry_flat. destruct (get_at l' _); cbn [eval]; try reflexivity. apply assign_entry_flat'.
Qed.
Lemma same_dims_refl {T} r c (l l' : list T) : same_dims (mat r c l) (mat r c l') = true.
Proof. unfold same_dims. cbn. rewrite !Nat.eqb_refl. reflexivity. Qed.
Lemma mat_assign_flat {T} op r c (l : list T) y : length l = r * c -> (forall l', y = Some l' -> length l' = r * c) ->
  mat_assign op (mat r c l) (option_map (mat r c) y) = as_mat r c (vec_assign op l y).
Proof.
  intros L Ly. unfold mat_assign, vec_assign.
  assert (R : forall d, rd (mat r c d) (option_map (mat r c) y) = mat r c (rd d y)) by (destruct y; reflexivity).
  rewrite R, same_dims_refl. replace (length l =? length (rd l y)) with true
    by (symmetry; apply Nat.eqb_eq; destruct y; cbn; [rewrite (Ly _ eq_refl)|]; auto).
  cbn [negb mat rows cols]. fold (mat r c l). rewrite L. apply for2_mat. intros i j l' Hj. rewrite R, entry_flat.
  destruct (get_at (rd l' y) _); cbn [eval]; try reflexivity. apply assign_entry_flat.
Qed.
Lemma mat_assign_flat' {T} (op : lop T) r c (l : list T) y : length l = r * c -> (forall l', y = Some l' -> length l' = r * c) ->
  mat_assign' op (mat r c l) (option_map (mat r c) y) = as_mat r c (vec_assign' op l y).
Proof.
  intros L Ly. unfold mat_assign', vec_assign'.
  assert (R : forall d, rd (mat r c d) (option_map (mat r c) y) = mat r c (rd d y)) by (destruct y; reflexivity).
  rewrite R, same_dims_refl. replace (length l =? length (rd l y)) with true
    by (symmetry; apply Nat.eqb_eq; destruct y; cbn; [rewrite (Ly _ eq_refl)|]; auto).
  cbn [negb mat rows cols]. fold (mat r c l). rewrite L. apply for2_mat. intros i j l' Hj. rewrite R, entry_flat.
  destruct (get_at (rd l' y) _); cbn [eval]; try reflexivity. apply assign_entry_flat'.
Qed.

(** *** Elements of Frac *)
Section Frac.
Variable op : lop Frac.
Variable f : ext -> ext -> option ext.
Hypothesis Hop : forall x y ex ey, is_ext x ex -> is_ext (rd x y) ey -> leaves_ext (op x y) (f ex ey).
Variables (x : list Frac) (ex : list ext).
Hypothesis Hx : Forall2 is_ext x ex.
Variable rs : list (option ext).
Hypothesis Lrs : length rs = length x.
(** the state before round a *)
Definition before (a : nat) (d : list Frac) : Prop := length d = length x /\
  (forall j, j < a -> exists g e, nth_error d j = Some g /\ nth_error rs j = Some (Some e) /\ is_ext g e) /\
  (forall j, a <= j -> nth_error d j = nth_error x j).
Variable body : nat -> list Frac -> outcome (list Frac).
Hypothesis Hbody : forall a d, a < length x -> before a d ->
  exists g y o, nth_error d a = Some g /\ body a d = (replace d a (fst (op g y)), snd (op g y)) /\ nth_error rs a = Some o /\ leaves_ext (op g y) o.
Lemma loop_through n : forall a d, a + n = length x -> before a d -> works_through x rs (for_ n a body d).
Proof.
  induction n as [|n IH]; intros a d Ha Hd; cbn [for_].
  - unfold works_through, done. cbn [snd fst]. destruct Hd as (L & D & _).
    assert (G : forall j, j < length x -> exists g e, nth_error d j = Some g /\ nth_error rs j = Some (Some e) /\ is_ext g e) by (intros j Hj; apply D; lia).
    rewrite <- L in G, Lrs. clear - G Lrs. revert rs Lrs G. induction d as [|g d IH]; intros [|o rs] L G; try discriminate; constructor.
    + destruct (G 0 ltac:(cbn; lia)) as (g' & e & E1 & E2 & E3). cbn in E1, E2. injection E1 as <-. injection E2 as ->. eauto.
    + apply IH; [auto|]. intros j Hj. apply (G (Datatypes.S j)). cbn. lia.
  - destruct (Hbody a d ltac:(lia) Hd) as (g & y & o & Eg & -> & Eo & HL). destruct Hd as (L & D & R).
    assert (La : a < length d) by lia. unfold leaves_ext in HL. destruct (op g y) as [z q]. cbn [fst snd] in *.
    destruct q as [[]|e| | |]; cbn [andthen]; try contradiction.
    + apply IH; [lia|]. split; [rewrite length_replace; auto|]. split.
      * intros j Hj. destruct (Nat.eq_dec j a) as [->|N].
        -- destruct HL as (e & -> & He). exists z, e. rewrite nth_replace_eq by auto. auto.
        -- rewrite nth_replace_ne by auto. apply D. lia.
      * intros j Hj. rewrite nth_replace_ne by lia. apply R. lia.
    + destruct HL as (-> & -> & Hz). split; [reflexivity|]. cbn [fst]. split; [rewrite length_replace; auto|]. exists a. split; [exact Eo|]. split.
      * exists z. rewrite nth_replace_eq by auto. auto.
      * split; intros j Hj; rewrite nth_replace_ne by lia; [apply D; lia|apply R; lia].
    + exact I.
Qed.
End Frac.
Lemma before_0 x rs : before x rs 0 x.
Proof. split; [reflexivity|]. split; [intros; lia|reflexivity]. Qed.

Lemma zip_nth f : forall x y j a b, nth_error x j = Some a -> nth_error y j = Some b -> nth_error (zip f x y) j = Some (f a b).
Proof. induction x as [|u x IH]; intros [|v y] [|j] a b; cbn; try discriminate; [intros [= ->] [= ->]; reflexivity|apply IH]. Qed.
Lemma zip_length f : forall x y, length x = length y -> length (zip f x y) = length x.
Proof. induction x as [|u x IH]; intros [|v y]; cbn; try discriminate; auto. Qed.
Lemma by_own_length f x a : forall k, length (by_own f x a k) = length x.
Proof.
  induction x as [|e x IH]; intros k; cbn [by_own length]; [reflexivity|]. f_equal. destruct k; [|apply IH].
  destruct (f a a); [apply map_length|]. rewrite map_length. reflexivity.
Qed.
Lemma by_own_nth f a : forall x k j e, nth_error x j = Some e -> nth_error (by_own f x a k) j =
  Some (if j <=? k then f e a else match f a a with Some b => f e b | None => None end).
Proof.
  induction x as [|u x IH]; intros k [|j] e; cbn [nth_error by_own]; try discriminate; [intros [= ->]; reflexivity|].
  intros E. destruct k as [|k]; cbn [Nat.leb]; [|apply IH; auto]. unfold all_by. destruct (f a a); rewrite nth_error_map, E; reflexivity.
Qed.
Lemma F2_nth {A B} (R : A -> B -> Prop) x y : Forall2 R x y -> forall j a, nth_error x j = Some a -> exists b, nth_error y j = Some b /\ R a b.
Proof. induction 1 as [|a b x y HR _ IH]; intros [|j] c; cbn; try discriminate; [intros [= ->]; eauto|apply IH]. Qed.
Lemma F2_length {A B} (R : A -> B -> Prop) x y : Forall2 R x y -> length x = length y.
Proof. induction 1; cbn; auto. Qed.
Lemma lt_nth {A} (l : list A) i : i < length l -> exists a, nth_error l i = Some a.
Proof. intros H. destruct (nth_error l i) eqn:E; [eauto|]. apply nth_error_None in E. lia. Qed.

Section Ops.
Variable op : lop Frac.
Variable f : ext -> ext -> option ext.
Hypothesis Hop : forall x y ex ey, is_ext x ex -> is_ext (rd x y) ey -> leaves_ext (op x y) (f ex ey).
Lemma vec_through x ex y ey : Forall2 is_ext x ex -> Forall2 is_ext (rd x y) ey -> length x = length (rd x y) ->
  works_through x (zip f ex ey) (vec_assign' op x y).
Proof.
  intros Hx Hy L. unfold vec_assign'. rewrite L, Nat.eqb_refl. cbn [negb]. rewrite <- L.
  apply (loop_through op); [| |reflexivity|apply before_0].
  { rewrite zip_length; rewrite <- (F2_length _ _ _ Hx); auto. rewrite L. apply (F2_length _ _ _ Hy). }
  intros a d Ha (Ld & _ & R). destruct (lt_nth _ _ Ha) as (g & Eg). destruct (F2_nth _ _ _ Hx _ _ Eg) as (e & Ee & He).
  destruct (lt_nth (rd x y) a ltac:(lia)) as (h & Eh). destruct (F2_nth _ _ _ Hy _ _ Eh) as (e' & Ee' & He').
  assert (Ed : nth_error (rd d y) a = Some h) by (destruct y; cbn in *; [auto|rewrite R by lia; auto]).
  exists g, (Some h), (f e e'). rewrite R by lia. split; [exact Eg|]. split.
  - unfold get_at at 1. rewrite Ed. cbn [eval]. unfold assign_at', get_at. rewrite R, Eg by lia. reflexivity.
  - split; [apply zip_nth; auto|]. apply Hop; auto.
Qed.
Lemma val_through x ex a ea : Forall2 is_ext x ex -> is_ext a ea -> works_through x (all_by f ex ea) (scale_assign' op x (Val a)).
Proof.
  intros Hx Ha. unfold scale_assign'. apply (loop_through op); [| |reflexivity|apply before_0].
  { unfold all_by. rewrite map_length. symmetry. apply (F2_length _ _ _ Hx). }
  intros i d Hi (Ld & _ & R). destruct (lt_nth _ _ Hi) as (g & Eg). destruct (F2_nth _ _ _ Hx _ _ Eg) as (e & Ee & He).
  exists g, (Some a), (f e ea). rewrite R by lia. split; [exact Eg|]. split.
  - unfold assign_at', get_at. rewrite R, Eg by lia. reflexivity.
  - split; [unfold all_by; rewrite nth_error_map, Ee; reflexivity|]. apply Hop; auto.
Qed.
Lemma own_through x ex k ea : Forall2 is_ext x ex -> nth_error ex k = Some ea -> works_through x (by_own f ex ea k) (scale_assign' op x (Elem k)).
Proof.
  intros Hx Hk. unfold scale_assign'. apply (loop_through op); [| |reflexivity|apply before_0].
  { rewrite by_own_length. symmetry. apply (F2_length _ _ _ Hx). }
  assert (Lk : k < length x) by (rewrite (F2_length _ _ _ Hx); apply nth_error_Some; congruence).
  destruct (lt_nth _ _ Lk) as (v & Ev). destruct (F2_nth _ _ _ Hx _ _ Ev) as (ea' & Hea & Hv). rewrite Hk in Hea. injection Hea as <-.
  intros i d Hi (Ld & D & R). destruct (lt_nth _ _ Hi) as (g & Eg). destruct (F2_nth _ _ _ Hx _ _ Eg) as (e & Ee & He).
  destruct (Nat.eqb_spec i k) as [->|N].
  - rewrite Ev in Eg. injection Eg as <-. exists v, None, (f ea ea). rewrite R by lia. split; [exact Ev|]. split.
    + unfold assign_at', get_at. rewrite R, Ev by lia. reflexivity.
    + rewrite (by_own_nth _ _ _ _ _ _ Hk), Nat.leb_refl. split; [reflexivity|]. apply Hop; auto.
  - destruct (Nat.lt_ge_cases i k) as [Lt|Ge].
    + exists g, (Some v), (f e ea). rewrite R by lia. split; [exact Eg|]. split.
      * unfold get_at at 1. rewrite R, Ev by lia. cbn [eval]. unfold assign_at', get_at. rewrite R, Eg by lia. reflexivity.
      * rewrite (by_own_nth _ _ _ _ _ _ Ee). replace (i <=? k) with true by (symmetry; apply Nat.leb_le; lia). split; [reflexivity|]. apply Hop; auto.
    + destruct (D k ltac:(lia)) as (w & ew & Ew & Er & Hw). rewrite (by_own_nth _ _ _ _ _ _ Hk), Nat.leb_refl in Er. injection Er as Er.
      exists g, (Some w), (f e ew). rewrite R by lia. split; [exact Eg|]. split.
      * unfold get_at at 1. rewrite Ew. cbn [eval]. unfold assign_at', get_at. rewrite R, Eg by lia. reflexivity.
      * rewrite (by_own_nth _ _ _ _ _ _ Ee). replace (i <=? k) with false by (symmetry; apply Nat.leb_gt; lia). rewrite Er. split; [reflexivity|]. apply Hop; auto.
Qed.
End Ops.

(** *** Division by zero *)
Lemma nth_error_same {A} : forall l l' : list A, (forall j, nth_error l j = nth_error l' j) -> l = l'.
Proof.
  induction l as [|a l IH]; intros [|b l'] H; auto; try (specialize (H 0); discriminate).
  f_equal; [specialize (H 0); cbn in H; congruence|]. apply IH. intros j. exact (H (Datatypes.S j)).
Qed.
Lemma over_zero f e : reduced f -> e_div (Fin (Fval f)) (Fin 0) = Some e -> ~ (Fval f == 0)%Q /\ e = Inf (neg_Q (Fval f)).
Proof.
  intros R. cbn [e_div]. change (zero_Q 0) with true. cbn iota. unfold zero_Q. destruct (Qeq_bool (Fval f) 0) eqn:E; [discriminate|]. intros [= <-].
  split; [|reflexivity]. intros H. apply Qeq_bool_iff in H. congruence.
Qed.
Lemma over_zero_none f : e_div (Fin (Fval f)) (Fin 0) = None -> (Fval f == 0)%Q.
Proof. cbn [e_div]. change (zero_Q 0) with true. cbn iota. unfold zero_Q. destruct (Qeq_bool (Fval f) 0) eqn:E; [intros _; apply Qeq_bool_iff; auto|discriminate]. Qed.
Lemma through_zero x rs p : Forall reduced x -> length rs = length x -> works_through x rs p ->
  (forall j g, nth_error x j = Some g -> (forall i, i < j -> nth_error rs i <> Some None) -> nth_error rs j = Some (e_div (Fin (Fval g)) (Fin 0))) ->
  over_zeros x p.
Proof.
  intros Rx L W H. unfold works_through in W. unfold over_zeros. destruct p as [d q]. cbn [fst snd] in *.
  destruct q as [[]|e| | |]; try contradiction; [right; left|right; right|left; reflexivity].
  - split; [reflexivity|].
    assert (G : forall j g, nth_error x j = Some g -> ~ (Fval g == 0)%Q /\ nth_error d j = Some (inf (neg_Q (Fval g)))).
    { intros j g Eg. assert (Hj : j < length x) by (apply nth_error_Some; congruence).
      assert (N : forall i, nth_error rs i <> Some None).
      { intros i E. assert (Li : i < length rs) by (apply nth_error_Some; congruence). rewrite <- (F2_length _ _ _ W) in Li.
        destruct (lt_nth _ _ Li) as (u & Eu). destruct (F2_nth _ _ _ W _ _ Eu) as (o & Eo & e & -> & _). congruence. }
      pose proof (H j g Eg (fun i _ => N i)) as Er. assert (Ld : j < length d) by (rewrite (F2_length _ _ _ W); lia).
      destruct (lt_nth _ _ Ld) as (u & Eu). destruct (F2_nth _ _ _ W _ _ Eu) as (o & Eo & e & -> & He). rewrite Eo in Er. injection Er as Er. symmetry in Er.
      destruct (over_zero g e) as [A ->]; auto; [rewrite Forall_forall in Rx; apply Rx; eapply nth_error_In; eauto|].
      split; [exact A|]. cbn [is_ext] in He. congruence. }
    split.
    + rewrite Forall_forall. intros g Hg. destruct (In_nth_error _ _ Hg) as (j & Ej). apply (G j g Ej).
    + apply nth_error_same. intros j. rewrite nth_error_map. destruct (nth_error x j) as [g|] eqn:Eg; cbn [option_map]; [apply G; auto|].
      apply nth_error_None. apply nth_error_None in Eg. rewrite (F2_length _ _ _ W). lia.
  - destruct W as (-> & Ld & k & Ek & (h & Eh & Nh) & B & A). split; [reflexivity|].
    assert (Lk : k < length x) by (rewrite <- Ld; apply nth_error_Some; congruence). destruct (lt_nth _ _ Lk) as (g & Eg).
    assert (N : forall i, i < k -> nth_error rs i <> Some None) by (intros i Hi; destruct (B i Hi) as (u & e & _ & E & _); congruence).
    destruct (nth_error_split _ _ Eg) as (a & b & -> & La). exists a, g, b, h.
    split; [reflexivity|].
    assert (G : forall j u, nth_error a j = Some u -> ~ (Fval u == 0)%Q /\ nth_error d j = Some (inf (neg_Q (Fval u)))).
    { intros j u Eu. assert (Hj : j < k) by (rewrite <- La; apply nth_error_Some; congruence).
      assert (Ej : nth_error (a ++ g :: b) j = Some u) by (rewrite nth_error_app1; [auto|lia]).
      pose proof (H j u Ej ltac:(intros i Hi; apply N; lia)) as Er. destruct (B j Hj) as (w & e & Ew & Ee & He). rewrite Er in Ee. injection Ee as Ee.
      destruct (over_zero u e) as [X ->]; auto; [rewrite Forall_forall in Rx; apply Rx; eapply nth_error_In; eauto|].
      split; [exact X|]. cbn [is_ext] in He. congruence. }
    split; [rewrite Forall_forall; intros u Hu; destruct (In_nth_error _ _ Hu) as (j & Ej); apply (G j u Ej)|].
    split; [apply over_zero_none; specialize (H k g Eg N); congruence|]. split; [exact Nh|].
    apply nth_error_same. intros j. destruct (Nat.lt_trichotomy j k) as [Hj|[->|Hj]].
    + rewrite nth_error_app1 by (rewrite map_length; lia). rewrite nth_error_map. destruct (lt_nth a j ltac:(lia)) as (u & Eu). rewrite Eu. apply G; auto.
    + rewrite nth_error_app2 by (rewrite map_length; lia). rewrite map_length, La, Nat.sub_diag. exact Eh.
    + rewrite A by auto. rewrite !nth_error_app2 by (rewrite ?map_length; lia). rewrite map_length. destruct (j - length a) eqn:E; [lia|reflexivity].
Qed.
Lemma reduced_ext x : Forall reduced x -> Forall2 is_ext x (map (fun f => Fin (Fval f)) x).
Proof. induction 1; cbn; constructor; auto. cbn. split; [auto|reflexivity]. Qed.
Lemma val_zero x z : Forall reduced x -> reduced z -> (Fval z == 0)%Q -> over_zeros x (scale_assign' F_div_assign x (Val z)).
Proof.
  intros Rx Rz Hz. eapply through_zero; [exact Rx| |apply (val_through F_div_assign e_div)|].
  3: apply reduced_ext; auto. 3: instantiate (1 := Fin 0); cbn; split; auto. 2: intros; apply F_div_ext; auto.
  - unfold all_by. rewrite !map_length. reflexivity.
  - intros j g Eg _. unfold all_by. rewrite !nth_error_map, Eg. reflexivity.
Qed.
Lemma own_zero x k g : Forall reduced x -> nth_error x k = Some g -> (Fval g == 0)%Q -> over_zeros x (scale_assign' F_div_assign x (Elem k)).
Proof.
  intros Rx Hk Hz. assert (Ek : nth_error (map (fun f => Fin (Fval f)) x) k = Some (Fin (Fval g))) by (rewrite nth_error_map, Hk; reflexivity).
  assert (Z0 : forall q : Q, e_div (Fin q) (Fin (Fval g)) = e_div (Fin q) (Fin 0)).
  { intros q. cbn [e_div]. change (zero_Q 0) with true. replace (zero_Q (Fval g)) with true; [reflexivity|]. symmetry. apply Qeq_bool_iff, Hz. }
  assert (N : e_div (Fin (Fval g)) (Fin 0) = None).
  { cbn [e_div]. change (zero_Q 0) with true. replace (zero_Q (Fval g)) with true; [reflexivity|]. symmetry. apply Qeq_bool_iff, Hz. }
  eapply through_zero; [exact Rx| |apply (own_through F_div_assign e_div)|].
  3: apply reduced_ext; auto. 3: exact Ek. 2: intros; apply F_div_ext; auto.
  - rewrite by_own_length, map_length. reflexivity.
  - intros j u Eu B. rewrite (by_own_nth _ _ _ _ j (Fin (Fval u))) by (rewrite nth_error_map, Eu; reflexivity).
    destruct (j <=? k) eqn:E; [rewrite Z0; reflexivity|]. apply Nat.leb_gt in E. exfalso. apply (B k E).
    rewrite (by_own_nth _ _ _ _ k _ Ek), Nat.leb_refl, Z0, N. reflexivity.
Qed.
