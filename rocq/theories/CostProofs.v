(** The counted algorithms compute what the algorithms of MatModel.v compute, and
    bounds on their counts. *)
From Coq Require Import ZifyBool Factorial.
From Verif Require Import Base IntModel ElemModel ElemSpec VecModel MatModel MatSpec ElemProofs MatProofs CostModel CostSpec.
Local Open Scope nat_scope.

(** *** Erasure *)
Lemma fst_cbind {A B} (m : counted A) m' (f : A -> counted B) g : fst m = m' -> (forall a, fst (f a) = g a) -> fst (cbind m f) = bind m' g.
Proof. intros <- H. destruct m as [[] n]; cbn; auto. Qed.
Lemma fst_ceval {S A} (s : S) (m : counted A) m' k g : fst m = m' -> (forall a, fst (k a) = g a) -> fst (ceval s m k) = eval s m' g.
Proof. intros <- H. destruct m as [[] n]; cbn; auto. Qed.
Lemma fst_candthen {S} (p : outcome S * Z) p' k g : fst p = p' -> (forall s, fst (k s) = g s) -> fst (candthen p k) = andthen p' g.
Proof. intros <- H. destruct p as [[s []] n]; cbn; auto. Qed.
Lemma fst_cfor {S} n : forall a (body : nat -> S -> outcome S * Z) g s, (forall i s, fst (body i s) = g i s) -> fst (cfor n a body s) = for_ n a g s.
Proof.
  induction n as [|n IH]; intros a body g s H; [reflexivity|]. cbn [cfor for_].
  apply fst_candthen; auto.
Qed.
Lemma fst_cfinal {S} (p : outcome S * Z) q : fst p = q -> fst (cfinal p) = final q.
Proof. intros <-. reflexivity. Qed.

Create HintDb erase.
Ltac erase := repeat first
  [ reflexivity | progress intros | solve [auto 2 with erase nocore]
  | match goal with
    | |- fst (cbind _ _) = _ => apply fst_cbind
    | |- fst (ceval _ _ _) = _ => apply fst_ceval
    | |- fst (candthen _ _) = _ => apply fst_candthen
    | |- fst (cfor _ _ _ _) = _ => apply fst_cfor
    | |- fst (cfinal _) = _ => apply fst_cfinal
    | |- fst (if ?b then _ else _) = _ => destruct b
    | |- fst (match ?o with Some _ => _ | None => _ end) = _ => destruct o as [[? ?]|]
    end ].

Section Erase.
Context {T : Type} (E : ops T) (w : kind -> Z).
Local Notation M := (Mat T).

Lemma assign_entry_e k op (m : M) i j y : fst (assign_entry_c w k op m i j y) = assign_entry op m i j y.
Proof. unfold assign_entry_c, assign_entry. erase. Qed.
#[local] Hint Resolve assign_entry_e : erase.
Lemma M_product_e (a b : M) : fst (M_product_c E w a b) = M_product E a b.
Proof. unfold M_product_c, M_product. erase. Qed.
Lemma det2_e (m : M) : fst (det2_c E w m) = det2 E m.
Proof. unfold det2_c, det2. erase. Qed.
Lemma expansion_e rec rec' (m : M) n ent mnr : (forall m, fst (rec m) = rec' m) -> fst (expansion_c E w rec m n ent mnr) = expansion E rec' m n ent mnr.
Proof. intros H. unfold expansion_c, expansion. erase; auto. apply det2_e. Qed.
Lemma row_expansion_e fuel : forall m : M, fst (row_expansion_c E w fuel m) = row_expansion E fuel m.
Proof. induction fuel; intros m; [reflexivity|]. apply expansion_e, IHfuel. Qed.
Lemma col_expansion_e fuel : forall m : M, fst (col_expansion_c E w fuel m) = col_expansion E fuel m.
Proof. induction fuel; intros m; [reflexivity|]. apply expansion_e, IHfuel. Qed.
Lemma find_pivot_e fuel : forall (m : M) r i p, fst (find_pivot_c E w fuel m r i p) = find_pivot E fuel m r i p.
Proof. induction fuel; intros m r i p; [reflexivity|]. cbn [find_pivot_c find_pivot]. erase; auto. Qed.
Lemma det_clear_e (m : M) r p : fst (det_clear_c E w m r p) = det_clear E m r p.
Proof. unfold det_clear_c, det_clear, for_to. erase. Qed.
Lemma det_rows_e n : forall r (m : M) f p, fst (det_rows_c E w n r m f p) = det_rows E n r m f p.
Proof.
  induction n; intros r m f p; [reflexivity|]. cbn [det_rows_c det_rows]. erase; [apply find_pivot_e|].
  destruct a as [t g]. erase; auto. apply det_clear_e.
Qed.
Lemma determinant_e (m : M) : fst (determinant_c E w m) = determinant E m.
Proof.
  unfold determinant_c, determinant. erase; [apply det2_e|apply det_rows_e|]. destruct a0 as [t g]. erase.
Qed.
Lemma rref_clear_e (m : M) r p : fst (rref_clear_c E w m r p) = rref_clear E m r p.
Proof. unfold rref_clear_c, rref_clear. erase. Qed.
Lemma rref_rows_e n : forall r p (m : M), fst (rref_rows_c E w n r p m) = rref_rows E n r p m.
Proof.
  induction n; intros r p m; [reflexivity|]. cbn [rref_rows_c rref_rows]. erase; auto using find_pivot_e, rref_clear_e.
Qed.
Lemma inplace_rref_e (m : M) : fst (inplace_rref_c E w m) = inplace_rref E m.
Proof. apply rref_rows_e. Qed.
Lemma rref_e (m : M) : fst (rref_c E w m) = rref E m.
Proof. unfold rref_c, rref. erase. apply inplace_rref_e. Qed.
Lemma inverse_e (m : M) : fst (inverse_c E w m) = inverse E m.
Proof. unfold inverse_c, inverse, for2. erase. apply inplace_rref_e. Qed.
End Erase.

(** *** Dimensions are kept *)
Lemma eval_keeps {S A} (I : S -> Prop) s (m : res A) k : I s -> (forall a, I (fst (k a))) -> I (fst (eval s m k)).
Proof. intros H K. destruct m; cbn; auto. Qed.
Lemma andthen_keeps {S} (I : S -> Prop) (p : outcome S) k : I (fst p) -> (forall s, I s -> I (fst (k s))) -> I (fst (andthen p k)).
Proof. intros H K. destruct p as [s []]; cbn in *; auto. Qed.
Lemma for_keeps {S} (I : S -> Prop) n : forall a body s, I s -> (forall i s, I s -> I (fst (body i s))) -> I (fst (for_ n a body s)).
Proof. induction n as [|n IH]; intros a body s H K; cbn [for_]; [exact H|]. apply andthen_keeps; auto. Qed.
Lemma final_keeps {S} (I : S -> Prop) (p : outcome S) s : final p = Ok s -> I (fst p) -> I s.
Proof. destruct p as [t []]; cbn; intros H; try discriminate. injection H as ->. auto. Qed.

Section Keeps.
Context {T : Type} (E : ops T).
Local Notation M := (Mat T).
Definition sized (r c : nat) (m : M) : Prop := rows m = r /\ cols m = c.
Lemma set_keeps r c (m : M) i j x : sized r c m -> sized r c (fst (set_entry m i j x)).
Proof. unfold set_entry. intros H. destruct (_ <? _); exact H. Qed.
Lemma assign_keeps r c op (m : M) i j y : sized r c m -> sized r c (fst (assign_entry op m i j y)).
Proof. intros H. unfold assign_entry. apply (eval_keeps (sized r c)); auto. intros. apply set_keeps, H. Qed.
Lemma fill_keeps r c a b f (m : M) : sized r c m -> sized r c (fst (fill a b f m)).
Proof.
  intros H. unfold fill. apply (for_keeps (sized _ _)); auto. intros i s Hs. apply (for_keeps (sized _ _)); auto. intros j s' Hs'. apply (eval_keeps (sized _ _)); auto. intros x. apply set_keeps, Hs'.
Qed.
Lemma swap_keeps r c (m : M) a b : sized r c m -> sized r c (fst (swap_rows m a b)).
Proof.
  intros H. unfold swap_rows. destruct (a =? b); [exact H|]. apply (for_keeps (sized _ _)); auto. intros i s Hs.
  apply (eval_keeps (sized _ _)); auto. intros x. apply (eval_keeps (sized _ _)); auto. intros y. apply (andthen_keeps (sized _ _)); auto using set_keeps.
Qed.
Lemma new_sized r c : sized r c (Mat_new E r c).
Proof. split; reflexivity. Qed.
Lemma copy_sized (m d : M) : Mat_copy E m = Ok d -> sized (rows m) (cols m) d.
Proof.
  unfold Mat_copy. intros H. apply (final_keeps (sized (rows m) (cols m)) _ _ H). unfold setEntries_ptr.
  destruct (_ <? _); [apply new_sized|]. apply fill_keeps, new_sized.
Qed.
Lemma val_sized r c v (d : M) : Mat_val E r c v = Ok d -> sized r c d.
Proof. unfold Mat_val. intros H. apply (final_keeps (sized r c) _ _ H). apply fill_keeps, new_sized. Qed.
Lemma minor_sized (m d : M) i j : first_minor E m i j = Ok d -> sized (rows m - 1) (cols m - 1) d.
Proof.
  unfold first_minor. destruct (_ || _); [discriminate|]. intros H. apply (final_keeps (sized _ _) _ _ H). apply fill_keeps, new_sized.
Qed.
Lemma identity_sized n (d : M) : identityMatrix E n = Ok d -> sized n n d.
Proof.
  unfold identityMatrix. destruct (Mat_val E n n _) as [r| | | |] eqn:Er; cbn [bind]; try discriminate.
  intros H. apply (final_keeps (sized n n) _ _ H). apply (for_keeps (sized _ _)); [eapply val_sized, Er|]. intros. apply set_keeps; auto.
Qed.
Lemma augmented_sized (a b d : M) : augmentedMatrix E a b = Ok d -> sized (rows a) (cols a + cols b) d.
Proof.
  unfold augmentedMatrix. destruct (negb _); [discriminate|]. intros H. apply (final_keeps (sized (rows a) (cols a + cols b)) _ _ H).
  apply (for_keeps (sized _ _)); [apply new_sized|]. intros i s Hs. apply (andthen_keeps (sized _ _)).
  - apply (for_keeps (sized _ _)); auto. intros j t Ht. apply (eval_keeps (sized _ _)); auto. intros. apply set_keeps; auto.
  - intros t Ht. apply (for_keeps (sized _ _)); auto. intros j u Hu. apply (eval_keeps (sized _ _)); auto. intros. apply set_keeps; auto.
Qed.
Lemma det_clear_keeps R C (m : M) r p : sized R C m -> sized R C (fst (det_clear E m r p)).
Proof.
  intros H. unfold det_clear. apply (for_keeps (sized _ _)); auto. intros i s Hs. destruct (i =? r); [exact Hs|]. apply (eval_keeps (sized _ _)); auto. intros v.
  apply (for_keeps (sized _ _)); auto. intros j t Ht. apply (eval_keeps (sized _ _)); auto. intros q. apply assign_keeps; auto.
Qed.
Lemma rref_clear_keeps R C (m : M) r p : sized R C m -> sized R C (fst (rref_clear E m r p)).
Proof.
  intros H. unfold rref_clear. apply (for_keeps (sized _ _)); auto. intros i s Hs. destruct (i =? r); [exact Hs|]. apply (eval_keeps (sized _ _)); auto. intros v.
  apply (for_keeps (sized _ _)); auto. intros j t Ht. apply (eval_keeps (sized _ _)); auto. intros q. apply assign_keeps; auto.
Qed.
Lemma rref_rows_keeps R C n : forall r p (m : M), sized R C m -> sized R C (fst (rref_rows E n r p m)).
Proof.
  induction n as [|n IH]; intros r p m H; [exact H|]. cbn [rref_rows]. destruct (_ <=? _); [exact H|]. apply (eval_keeps (sized _ _)); auto.
  intros [[i q]|]; [|exact H]. apply (andthen_keeps (sized _ _)); [apply swap_keeps, H|]. intros s Hs. apply (eval_keeps (sized _ _)); auto. intros v.
  apply (andthen_keeps (sized _ _)); [apply (for_keeps (sized _ _)); auto; intros; apply assign_keeps; auto|]. intros t Ht.
  apply (andthen_keeps (sized _ _)); [apply rref_clear_keeps, Ht|]. auto.
Qed.
End Keeps.

(** *** Bounds *)
Local Open Scope Z_scope.
Lemma cost_cbind {A B} (m : counted A) (f : A -> counted B) x y : snd m <= x -> 0 <= y -> (forall a, fst m = Ok a -> snd (f a) <= y) -> snd (cbind m f) <= x + y.
Proof. intros H Y K. destruct m as [[a| | | |] n]; cbn in *; try lia. specialize (K a eq_refl). lia. Qed.
Lemma cost_ceval {S A} (s : S) (m : counted A) k x y : snd m <= x -> 0 <= y -> (forall a, fst m = Ok a -> snd (k a) <= y) -> snd (ceval s m k) <= x + y.
Proof. intros H Y K. destruct m as [[a| | | |] n]; cbn in *; try lia. specialize (K a eq_refl). lia. Qed.
Lemma cost_candthen {S} (p : outcome S * Z) k x y : snd p <= x -> 0 <= y -> (forall s, s = fst (fst p) -> snd (k s) <= y) -> snd (candthen p k) <= x + y.
Proof. intros H Y K. destruct p as [[s []] n]; cbn in *; try lia. specialize (K s eq_refl). lia. Qed.

(** b a + ... + b (a + n - 1) *)
Fixpoint zsum (n a : nat) (b : nat -> Z) : Z := match n with O => 0 | S n' => b a + zsum n' (S a) b end.
Lemma zsum_nonneg n : forall a b, (forall i, 0 <= b i) -> 0 <= zsum n a b.
Proof. induction n; intros a b H; cbn [zsum]; [lia|]. specialize (IHn (S a) b H). specialize (H a). lia. Qed.
Lemma zsum_const n c : forall a, zsum n a (fun _ => c) = Z.of_nat n * c.
Proof. induction n; intros a; cbn [zsum]; [lia|]. rewrite IHn. lia. Qed.
Lemma zsum_skip n r c : forall a, (a <= r < a + n)%nat -> zsum n a (fun i => if (i =? r)%nat then 0 else c) = (Z.of_nat n - 1) * c.
Proof.
  assert (G : forall n a, (r < a)%nat -> zsum n a (fun i => if (i =? r)%nat then 0 else c) = Z.of_nat n * c).
  { clear n. induction n as [|n IH]; intros a H; cbn [zsum]; [lia|]. rewrite IH by lia. destruct (Nat.eqb_spec a r); lia. }
  induction n as [|n IH]; intros a H; [lia|]. cbn [zsum]. destruct (Nat.eqb_spec a r) as [E|E].
  - rewrite G by lia. lia.
  - rewrite IH by lia. lia.
Qed.
Lemma cost_cfor {S} (I : S -> Prop) n : forall a body (b : nat -> Z) s, I s -> (forall i, 0 <= b i) ->
  (forall i s, (a <= i < a + n)%nat -> I s -> snd (body i s) <= b i) -> (forall i s, I s -> I (fst (fst (body i s)))) ->
  snd (cfor n a body s) <= zsum n a b.
Proof.
  induction n as [|n IH]; intros a body b s Hs Hb H K; cbn [cfor zsum]; [cbn; lia|].
  apply cost_candthen.
  - apply H; auto. lia.
  - apply zsum_nonneg, Hb.
  - intros t ->. apply IH; auto. intros i u Hi. apply H. lia.
Qed.

Lemma ceval_keeps {S A} (I : S -> Prop) s (m : counted A) k : I s -> (forall a, I (fst (fst (k a)))) -> I (fst (fst (ceval s m k))).
Proof. intros H K. destruct m as [[] n]; cbn; auto. Qed.
Lemma cfor_keeps {S} (I : S -> Prop) n : forall a body s, I s -> (forall i s, I s -> I (fst (fst (body i s)))) -> I (fst (fst (cfor n a body s))).
Proof.
  induction n as [|n IH]; intros a body s H K; cbn [cfor]; [exact H|]. specialize (K a s H) as Ka.
  destruct (body a s) as [[t []] k]; cbn in *; auto.
Qed.
Lemma cost3_cbind {A B} (m : counted A) (f : A -> counted B) x y : 3 * snd m <= x -> 0 <= y -> (forall a, fst m = Ok a -> 3 * snd (f a) <= y) -> 3 * snd (cbind m f) <= x + y.
Proof. intros H Y K. destruct m as [[a| | | |] n]; cbn [cbind fst snd] in *; try lia. specialize (K a eq_refl). lia. Qed.
Lemma wmono w a b : 0 <= w -> a <= b -> w * a <= w * b.
Proof. nia. Qed.
Lemma wstep w a b : 0 <= w -> a + 1 <= b -> w + w * a <= w * b.
Proof. nia. Qed.
Lemma wpos w a : 0 <= w -> 0 <= a -> 0 <= w * a.
Proof. nia. Qed.

Section Bounds.
Context {T : Type} (E : ops T) (w : kind -> Z) (Hw : forall k, 0 <= w k).
Local Notation M := (Mat T).
Local Notation wc := (w Compare). Local Notation wa := (w AddSub). Local Notation wt := (w Times). Local Notation wo := (w Over).
Ltac ws := pose proof (Hw Compare); pose proof (Hw AddSub); pose proof (Hw Times); pose proof (Hw Over).

Lemma cost_assign k op (m : M) i j y : snd (assign_entry_c w k op m i j y) <= w k.
Proof.
  unfold assign_entry_c. replace (w k) with ((0 + w k) + 0) by lia. apply cost_ceval; [|lia|intros; cbn; lia].
  apply cost_cbind; [cbn; lia|auto|]. intros. cbn. lia.
Qed.

Lemma assign_c_keeps r c k op (m : M) i j y : sized r c m -> sized r c (fst (fst (assign_entry_c w k op m i j y))).
Proof. intros H. apply (ceval_keeps (sized _ _)); auto. intros. apply set_keeps, H. Qed.

Lemma cost_product (a b : M) : snd (M_product_c E w a b) <= Z.of_nat (rows a) * (Z.of_nat (cols a) * (Z.of_nat (cols b) * (wt + wa))).
Proof.
  ws. unfold M_product_c. destruct (negb _); [cbn; nia|].
  match goal with |- _ <= ?b => replace b with (0 + b) by lia end.
  apply cost_cbind; [cbn; lia|nia|]. intros r Hr. cbn [cfinal snd].
  rewrite <- zsum_const with (a := O). apply (cost_cfor (fun _ => True)); auto; [intros; nia|]. intros i s _ _.
  rewrite <- zsum_const with (a := O). apply (cost_cfor (fun _ => True)); auto; [intros; nia|]. intros k t _ _.
  rewrite <- zsum_const with (a := O). apply (cost_cfor (fun _ => True)); auto; [intros; nia|]. intros j u _ _.
  apply cost_ceval; [|auto|intros; apply cost_assign].
  replace wt with (0 + (0 + wt)) by lia. apply cost_cbind; [cbn; lia|lia|intros]. apply cost_cbind; [cbn; lia|lia|intros]. cbn. lia.
Qed.

Lemma cost_det2 (m : M) : snd (det2_c E w m) <= 2 * wt + wa.
Proof.
  ws. unfold det2_c. replace (2 * wt + wa) with (0 + (0 + (wt + (0 + (0 + (wt + wa)))))) by lia.
  repeat (apply cost_cbind; [cbn; lia|lia|intros]). cbn. lia.
Qed.

(** *** Search for a pivot *)
Definition pivot_end (m : M) (o : res (option (nat * nat))) : Z :=
  match o with Ok (Some (_, p)) => Z.of_nat p + 1 | _ => Z.of_nat (cols m) end.
Lemma cost_find_pivot fuel : forall (m : M) r i p, (r <= i < rows m)%nat -> (p < cols m)%nat ->
  snd (find_pivot_c E w fuel m r i p) <= wc * (Z.of_nat (rows m) * (pivot_end m (fst (find_pivot_c E w fuel m r i p)) - Z.of_nat p) - (Z.of_nat i - Z.of_nat r))
  /\ Z.of_nat p < pivot_end m (fst (find_pivot_c E w fuel m r i p)) <= Z.of_nat (cols m).
Proof.
  ws. induction fuel as [|fuel IH]; intros m r i p Hi Hp.
  { cbn. split; [|lia]. apply wpos; [lia|]. nia. }
  cbn [find_pivot_c].
  assert (Z0 : 0 <= Z.of_nat (rows m) * (Z.of_nat (cols m) - Z.of_nat p) - (Z.of_nat i - Z.of_nat r) - 1) by nia.
  assert (Z1 : wc * 0 <= wc * (Z.of_nat (rows m) * (Z.of_nat (cols m) - Z.of_nat p) - (Z.of_nat i - Z.of_nat r))) by (apply wmono; lia).
  assert (Z2 : wc + wc * 0 <= wc * (Z.of_nat (rows m) * (Z.of_nat (cols m) - Z.of_nat p) - (Z.of_nat i - Z.of_nat r))) by (apply wstep; lia).
  destruct (entry m i p) as [x| | | |]; cbn [free cbind fst snd pivot_end]; try (split; lia).
  destruct (eqb E x (of_int E 0)) as [[]| | | |]; cbn [tick cbind fst snd pivot_end]; try (split; lia).
  2:{ cbn [free fst snd pivot_end]. split; [|lia]. assert (wc + wc * 0 <= wc * (Z.of_nat (rows m) * (Z.of_nat p + 1 - Z.of_nat p) - (Z.of_nat i - Z.of_nat r))) by (apply wstep; lia). lia. }
  destruct (Nat.eqb_spec (rows m) (i + 1)) as [Er|Er].
  - destruct (Nat.eqb_spec (cols m) (p + 1)) as [Ec|Ec]; [cbn [free fst snd pivot_end]; split; lia|].
    destruct (IH m r r (p + 1)%nat) as (G1 & G2); [lia..|].
    destruct (find_pivot_c E w fuel m r r (p + 1)) as [o n]; cbn [fst snd] in *. split; [|lia].
    remember (pivot_end m o) as e. etransitivity; [|apply wstep with (a := Z.of_nat (rows m) * (e - Z.of_nat (p + 1)) - (Z.of_nat r - Z.of_nat r)); nia]. lia.
  - destruct (IH m r (i + 1)%nat p) as (G1 & G2); [lia..|].
    destruct (find_pivot_c E w fuel m r (i + 1) p) as [o n]; cbn [fst snd] in *. split; [|lia].
    remember (pivot_end m o) as e. etransitivity; [|apply wstep with (a := Z.of_nat (rows m) * (e - Z.of_nat p) - (Z.of_nat (i + 1) - Z.of_nat r)); lia]. lia.
Qed.

(** *** Determinant by elimination *)
Lemma cost_det_clear R C (m : M) r p : sized R C m -> (p < R)%nat -> (p < C)%nat ->
  snd (det_clear_c E w m r p) <= (Z.of_nat R - 1 - Z.of_nat p) * ((Z.of_nat C - Z.of_nat p) * (wt + wo + wa)).
Proof.
  ws. intros Hm HR HC. unfold det_clear_c. destruct Hm as [Hr Hc].
  replace (Z.of_nat R - 1 - Z.of_nat p) with (Z.of_nat (rows m - (p + 1))) by lia. rewrite <- zsum_const with (a := (p + 1)%nat).
  apply (cost_cfor (sized R C)); [split; auto|intros; nia|..].
  - intros i s _ Hs. destruct (i =? r)%nat; [cbn; nia|].
    match goal with |- _ <= ?b => replace b with (0 + b) by lia end. apply cost_ceval; [cbn; lia|nia|]. intros v _.
    destruct Hs as [Hs1 Hs2]. replace (Z.of_nat C - Z.of_nat p) with (Z.of_nat (cols s - p)) by lia. rewrite <- zsum_const with (a := p).
    apply (cost_cfor (fun _ => True)); auto; [intros; nia|]. intros j t _ _.
    replace (wt + wo + wa) with ((0 + (wt + (0 + wo))) + wa) by lia. apply cost_ceval; [|lia|intros; apply cost_assign].
    repeat (apply cost_cbind; [cbn; lia|lia|intros]). cbn. lia.
  - intros i s Hs. destruct (i =? r)%nat; [exact Hs|]. apply (ceval_keeps (sized _ _)); auto. intros v.
    apply (cfor_keeps (sized _ _)); auto. intros j t Ht. apply (ceval_keeps (sized _ _)); auto. intros q. apply assign_c_keeps, Ht.
Qed.

(** A pivot that is found lies inside the matrix. *)
Lemma find_pivot_in fuel : forall (m : M) r i p i' p', (i < rows m)%nat -> (r < rows m)%nat -> (p < cols m)%nat ->
  fst (find_pivot_c E w fuel m r i p) = Ok (Some (i', p')) -> (p <= p' < cols m)%nat /\ (i' < rows m)%nat.
Proof.
  induction fuel as [|fuel IH]; intros m r i p i' p' Hi Hr Hp; [discriminate|]. cbn [find_pivot_c].
  destruct (entry m i p) as [x| | | |]; cbn [free cbind fst]; try discriminate.
  destruct (eqb E x (of_int E 0)) as [[]| | | |]; cbn [tick cbind fst]; try discriminate.
  2:{ intros [= <- <-]. lia. }
  destruct (Nat.eqb_spec (rows m) (i + 1)) as [Er|Er].
  - destruct (Nat.eqb_spec (cols m) (p + 1)) as [Ec|Ec]; [discriminate|]. intros H. apply IH in H; lia.
  - intros H. apply IH in H; lia.
Qed.

Definition det_bound (N k : Z) : Z := wc * (N * k) * 3 + (wt * k) * 3 + (wt + wo + wa) * (k * k * k - k).
Lemma det_bound_mono N a b : 0 <= N -> 0 <= a <= b -> det_bound N a <= det_bound N b.
Proof.
  ws. intros HN Hab. unfold det_bound. assert (wc * (N * a) <= wc * (N * b)) by (apply wmono; nia). assert (wt * a <= wt * b) by (apply wmono; lia).
  assert ((wt + wo + wa) * (a * a * a - a) <= (wt + wo + wa) * (b * b * b - b)); [|lia]. apply wmono; [lia|].
  assert (C : a = b \/ a + 1 <= b) by lia. destruct C as [->|C]; [lia|]. 
  assert (b * b * b - b - (a * a * a - a) = (b - a) * (b * b + a * b + a * a - 1)) by ring. assert (0 <= (b - a) * (b * b + a * b + a * a - 1)); [|lia].
  apply Z.mul_nonneg_nonneg; nia.
Qed.
Lemma det_bound_pos N a : 0 <= N -> 0 <= a -> 0 <= det_bound N a.
Proof. intros HN H. assert (G := det_bound_mono N 0 a HN). assert (det_bound N 0 = 0) by (unfold det_bound; ring). lia. Qed.

Lemma cost_swap (m : M) i r f : let sw := if (i =? r)%nat then free (Ok (m, f)) else t <-- free (final (swap_rows m i r)) ;;; f <-- tick w Times (mulA E f (Some (of_int E (-1)))) ;;; free (Ok (t, f)) in
  snd sw <= wt /\ (forall p, fst sw = Ok p -> sized (rows m) (cols m) (fst p)).
Proof.
  ws. cbn zeta. destruct (i =? r)%nat.
  - split; [cbn; lia|]. intros p [= <-]. split; reflexivity.
  - split.
    + replace wt with (0 + (wt + 0)) by lia. apply cost_cbind; [apply Z.le_refl|lia|intros]. apply cost_cbind; [apply Z.le_refl|lia|intros]. apply Z.le_refl.
    + intros p. destruct (final (swap_rows m i r)) as [u| | | |] eqn:Eu; cbn; try discriminate.
      destruct (mulA E f _) as [v| | | |]; cbn; try discriminate. intros [= <-].
      apply (final_keeps (sized (rows m) (cols m)) _ _ Eu), swap_keeps. split; reflexivity.
Qed.

Lemma cost_det_rows N n : forall r (m : M) f p, sized N N m -> (r + n = N)%nat -> (p <= N)%nat ->
  3 * snd (det_rows_c E w n r m f p) <= det_bound (Z.of_nat N) (Z.of_nat N - Z.of_nat p).
Proof.
  ws. induction n as [|n IH]; intros r m f p Hm Hr Hp.
  { cbn. apply det_bound_pos; lia. }
  cbn [det_rows_c]. destruct Hm as [Mr Mc]. destruct (Nat.leb_spec (cols m) p) as [G|G].
  { cbn. apply det_bound_pos; lia. }
  destruct (cost_find_pivot (pivot_fuel m) m r r p) as (F1 & F2); [lia..|].
  pose proof (find_pivot_in (pivot_fuel m) m r r p) as F3.
  destruct (find_pivot_c E w (pivot_fuel m) m r r p) as [o c]. cbn [fst snd] in *. rewrite Mr, Mc in *.
  assert (L : forall e, Z.of_nat p <= e <= Z.of_nat N -> wc * (Z.of_nat N * (e - Z.of_nat p)) <= wc * (Z.of_nat N * (Z.of_nat N - Z.of_nat p))) by (intros; apply wmono; nia).
  assert (P0 : 0 <= wt * (Z.of_nat N - Z.of_nat p)) by (apply wpos; lia).
  assert (P1 : 0 <= (wt + wo + wa) * ((Z.of_nat N - Z.of_nat p) * (Z.of_nat N - Z.of_nat p) * (Z.of_nat N - Z.of_nat p) - (Z.of_nat N - Z.of_nat p))).
  { apply wpos; [lia|]. remember (Z.of_nat N - Z.of_nat p) as k. assert (1 <= k) by lia. nia. }
  assert (Fall : forall e, Z.of_nat p < e <= Z.of_nat N -> c <= wc * (Z.of_nat N * (e - Z.of_nat p)) -> 3 * c <= det_bound (Z.of_nat N) (Z.of_nat N - Z.of_nat p)).
  { intros e He Hc. specialize (L e). unfold det_bound. lia. }
  replace (Z.of_nat r - Z.of_nat r) with 0 in F1 by lia. rewrite Z.sub_0_r in F1.
  replace (det_bound (Z.of_nat N) (Z.of_nat N - Z.of_nat p)) with
    (3 * (wc * (Z.of_nat N * (pivot_end m o - Z.of_nat p))) + (det_bound (Z.of_nat N) (Z.of_nat N - Z.of_nat p) - 3 * (wc * (Z.of_nat N * (pivot_end m o - Z.of_nat p))))) by lia.
  apply cost3_cbind; [cbn [snd]; lia|specialize (L (pivot_end m o)); unfold det_bound; lia|]. 
  cbn [fst]. intros a ->. destruct a as [[i q]|]; [|cbn [free snd]; specialize (L (Z.of_nat N)); unfold det_bound; cbn [pivot_end]; rewrite ?Mc; lia].
  destruct (F3 i q) as (Q1 & Q2); [lia..|reflexivity|]. cbn [pivot_end] in *. clear F3 L Fall P0 P1 F1 F2 c.
  transitivity (3 * wt + (3 * ((Z.of_nat N - 1 - Z.of_nat q) * ((Z.of_nat N - Z.of_nat q) * (wt + wo + wa))) + det_bound (Z.of_nat N) (Z.of_nat N - Z.of_nat (q + 1)))).
  - destruct (cost_swap m i r f) as (S1 & S2). cbn zeta in S1, S2. rewrite Mr, Mc in S2.
    assert (D := det_bound_pos (Z.of_nat N) (Z.of_nat N - Z.of_nat (q + 1))). assert (0 <= (Z.of_nat N - 1 - Z.of_nat q) * ((Z.of_nat N - Z.of_nat q) * (wt + wo + wa))) by (apply wpos; [lia|apply wpos; lia]).
    apply cost3_cbind; [lia|lia|]. intros a Ha. apply S2 in Ha.
    apply cost3_cbind; [|lia|].
    + cbn [cfinal snd]. assert (C := cost_det_clear N N (fst a) r q Ha). lia.
    + intros t Ht. apply IH; [|lia..]. cbn [cfinal fst] in Ht. apply (final_keeps (sized N N) _ _ Ht). rewrite det_clear_e. apply det_clear_keeps, Ha.
  - assert (D := det_bound_mono (Z.of_nat N) (Z.of_nat N - Z.of_nat q) (Z.of_nat N - Z.of_nat p)). unfold det_bound in *.
    remember (Z.of_nat N) as z. remember (z - Z.of_nat q) as k. replace (z - Z.of_nat (q + 1)) with (k - 1) by lia. replace (z - 1 - Z.of_nat q) with (k - 1) by lia.
    remember (Z.of_nat p) as y. replace (Z.of_nat q + 1 - y) with (z - y - (k - 1)) by lia.
    assert (P3 : wt * k <= wt * (z - y)) by (apply wmono; lia).
    assert (P4 : (wt + wo + wa) * (k * k * k - k) <= (wt + wo + wa) * ((z - y) * (z - y) * (z - y) - (z - y))).
    { apply wmono; [lia|]. replace ((z - y) * (z - y) * (z - y) - (z - y)) with (k * k * k - k + ((z - y - k) * ((z - y) * (z - y) + k * (z - y) + k * k - 1))) by ring.
      assert (0 <= (z - y - k) * ((z - y) * (z - y) + k * (z - y) + k * k - 1)); [|lia]. apply Z.mul_nonneg_nonneg; nia. }
    clear D. remember (z - y) as u. replace (wc * (z * (k - 1)) * 3) with (3 * (wc * (z * u)) - 3 * (wc * (z * (u - (k - 1))))) by ring.
    replace ((wt + wo + wa) * ((k - 1) * (k - 1) * (k - 1) - (k - 1))) with ((wt + wo + wa) * (k * k * k - k) - 3 * ((k - 1) * (k * (wt + wo + wa)))) by ring.
    lia.
Qed.

Lemma det_rows_sized N k : forall (t : M) r f q p, sized N N t -> fst (det_rows_c E w k r t f q) = Ok p -> sized N N (fst p).
Proof.
    induction k as [|k IH]; intros t r f q p Ht; cbn [det_rows_c]; [intros [= <-]; exact Ht|].
    destruct (_ <=? _)%nat; [intros [= <-]; exact Ht|].
    destruct (find_pivot_c _ _ _ _ _ _ _) as [[[[i q']|]| | | |] c]; cbn [cbind fst]; try discriminate; [|intros [= <-]; exact Ht].
    destruct (cost_swap t i r f) as (_ & S2). cbn zeta in S2. destruct Ht as [T1 T2]. rewrite T1, T2 in S2.
    match goal with |- fst (cbind ?a _) = _ -> _ => destruct a as [[a1| | | |] a2]; cbn [cbind fst]; try discriminate end.
    specialize (S2 a1 eq_refl). 
    match goal with |- fst (cbind ?a _) = _ -> _ => destruct a as [[b1| | | |] b2] eqn:Eb; cbn [cbind fst]; try discriminate end.
    apply IH. apply (f_equal fst) in Eb. cbn [cfinal fst] in Eb. apply (final_keeps (sized N N) _ _ Eb). rewrite det_clear_e. apply det_clear_keeps, S2.
Qed.

Lemma cost_determinant (m : M) : let n := Z.of_nat (rows m) in
  3 * snd (determinant_c E w m) <= (wt + wo + wa) * (n * n * n - n) + 3 * (2 * n * wt + wo + n * n * wc).
Proof.
  ws. cbn zeta. unfold determinant_c.
  assert (P : 0 <= Z.of_nat (rows m)) by lia. set (n := Z.of_nat (rows m)) in *.
  assert (P1 : 0 <= (wt + wo + wa) * (n * n * n - n)). { apply wpos; [lia|]. destruct (Z.eq_dec n 0) as [->|]; nia. }
  assert (P2 : 0 <= n * n * wc) by (apply wpos; nia). assert (P3 : 0 <= n * wt) by nia.
  destruct (Nat.eqb_spec (rows m) (cols m)) as [Q|Q]; cbn [negb]; [|cbn [free tick cdone snd]; lia].
  destruct (rows m =? 1)%nat eqn:E1; [cbn [free tick cdone snd]; lia|]. destruct (Nat.eqb_spec (rows m) 2) as [E2|E2].
  { assert (C := cost_det2 m). assert (n = 2) by lia. subst n. rewrite H3 in *. lia. }
  replace (_ + _) with (0 + (det_bound n n + (3 * (n * wt) + 3 * wo))) by (unfold det_bound; ring).
  assert (0 <= det_bound n n) by (apply det_bound_pos; lia).
  apply cost3_cbind; [cbn [free tick cdone snd]; lia|lia|]. intros t Ht. cbn [free fst] in Ht. apply copy_sized in Ht. rewrite <- Q in Ht.
  apply cost3_cbind; [|lia|].
  { destruct Ht as [Ht1 Ht2]. rewrite Ht1. assert (C := cost_det_rows (rows m) (rows m) 0 t (of_int E 1) 0). rewrite Z.sub_0_r in C. apply C; [split; auto|lia..]. }
  intros p Hp. assert (Sp : sized (rows m) (rows m) (fst p)).
  { eapply det_rows_sized; eassumption. }
  destruct Sp as [Sp1 Sp2]. apply cost3_cbind; [|lia|intros; cbn [free tick cdone snd]; lia].
  cbn [cfinal snd]. rewrite Sp1. enough (G : forall z, snd (cfor (rows m) 0 (fun i q => ceval q (x <-- free (entry (fst p) i i) ;;; tick w Times (mulA E q (Some x))) cdone) z) <= n * wt) by (specialize (G (of_int E 1)); lia).
  intros z. unfold n. rewrite <- zsum_const with (a := O). apply (cost_cfor (fun _ => True)); auto.
  intros i s _ _. replace wt with ((0 + wt) + 0) by lia. apply cost_ceval; [|lia|intros; cbn [free tick cdone snd]; lia]. apply cost_cbind; [cbn [free tick cdone snd]; lia|lia|intros; cbn [free tick cdone snd]; lia].
Qed.

(** *** Row reduction *)
Lemma cost_rref_clear R C (m : M) r p : sized R C m -> (r < R)%nat ->
  snd (rref_clear_c E w m r p) <= (Z.of_nat R - 1) * (Z.of_nat C * (wt + wa)).
Proof.
  ws. intros Hm HR. unfold rref_clear_c. destruct Hm as [Hr Hc]. rewrite Hr.
  rewrite <- (zsum_skip R r (Z.of_nat C * (wt + wa)) 0) by lia.
  apply (cost_cfor (sized R C)); [split; auto|intros i; destruct (i =? r)%nat; nia|..].
  - intros i s _ Hs. destruct (i =? r)%nat; [cbn; nia|].
    match goal with |- _ <= ?b => replace b with (0 + b) by lia end. apply cost_ceval; [cbn; lia|nia|]. intros v _.
    destruct Hs as [Hs1 Hs2]. rewrite Hs2. rewrite <- zsum_const with (a := O).
    apply (cost_cfor (fun _ => True)); auto; [intros; nia|]. intros j t _ _.
    replace (wt + wa) with ((0 + wt) + wa) by lia. apply cost_ceval; [|lia|intros; apply cost_assign].
    apply cost_cbind; [cbn; lia|lia|intros]. cbn. lia.
  - intros i s Hs. destruct (i =? r)%nat; [exact Hs|]. apply (ceval_keeps (sized _ _)); auto. intros v.
    apply (cfor_keeps (sized _ _)); auto. intros j t Ht. apply (ceval_keeps (sized _ _)); auto. intros q. apply assign_c_keeps, Ht.
Qed.
Lemma andc_state {S} (p : outcome S) k : fst (candthen (cfree p) k) = andthen p (fun s => fst (k s)).
Proof. destruct p as [s []]; reflexivity. Qed.

Lemma cost_rref_rows R C n : forall r p (m : M), sized R C m -> (r + n = R)%nat -> (p <= C)%nat ->
  snd (rref_rows_c E w n r p m) <= Z.min (Z.of_nat n) (Z.of_nat C - Z.of_nat p) * (Z.of_nat C * wo + (Z.of_nat R - 1) * (Z.of_nat C * (wt + wa))) + wc * (Z.of_nat R * (Z.of_nat C - Z.of_nat p)).
Proof.
  ws. induction n as [|n IH]; intros r p m Hm Hr Hp.
  { cbn [rref_rows_c cdone snd]. rewrite Z.min_l by lia. assert (0 <= wc * (Z.of_nat R * (Z.of_nat C - Z.of_nat p))) by (apply wpos; nia). lia. }
  set (K := Z.of_nat C * wo + (Z.of_nat R - 1) * (Z.of_nat C * (wt + wa))) in *.
  assert (HK : 0 <= K). { unfold K. assert (0 <= Z.of_nat C * (wt + wa)) by nia. assert (0 <= (Z.of_nat R - 1) * (Z.of_nat C * (wt + wa))) by (apply wpos; lia). nia. }
  assert (W : forall a b, 0 <= a <= b -> 0 <= wc * (Z.of_nat R * a) <= wc * (Z.of_nat R * b)) by (intros; split; [apply wpos; nia|apply wmono; nia]).
  cbn [rref_rows_c]. destruct Hm as [Mr Mc]. rewrite Mc. destruct (Nat.leb_spec C p) as [G|G].
  { cbn [cdone snd]. replace (Z.of_nat C - Z.of_nat p) with 0 by lia. lia. }
  destruct (cost_find_pivot (pivot_fuel m) m r r p) as (F1 & F2); [lia..|].
  pose proof (find_pivot_in (pivot_fuel m) m r r p) as F3.
  destruct (find_pivot_c E w (pivot_fuel m) m r r p) as [o c]. cbn [fst snd] in *. rewrite Mr, Mc in *.
  replace (Z.of_nat r - Z.of_nat r) with 0 in F1 by lia. rewrite Z.sub_0_r in F1.
  set (B := Z.min (Z.of_nat (S n)) (Z.of_nat C - Z.of_nat p) * K).
  assert (HB : 0 <= B) by (unfold B; apply wpos; lia).
  assert (We := W (pivot_end m o - Z.of_nat p) (Z.of_nat C - Z.of_nat p)).
  replace (B + _) with (wc * (Z.of_nat R * (pivot_end m o - Z.of_nat p)) + (B + wc * (Z.of_nat R * (Z.of_nat C - Z.of_nat p)) - wc * (Z.of_nat R * (pivot_end m o - Z.of_nat p)))) by lia.
  apply cost_ceval; [exact F1|lia|]. cbn [fst]. intros a ->. destruct a as [[i q]|]; [|cbn [cdone snd]; lia].
  destruct (F3 i q) as (Q1 & Q2); [lia..|reflexivity|]. cbn [pivot_end] in *.
  set (V := Z.min (Z.of_nat n) (Z.of_nat C - Z.of_nat (q + 1)) * K + wc * (Z.of_nat R * (Z.of_nat C - Z.of_nat (q + 1)))) in *.
  assert (HV : 0 <= V). { unfold V. assert (0 <= Z.min (Z.of_nat n) (Z.of_nat C - Z.of_nat (q + 1)) * K) by (apply wpos; lia). assert (V1 := W (Z.of_nat C - Z.of_nat (q + 1)) (Z.of_nat C - Z.of_nat (q + 1))). lia. }
  transitivity (0 + (0 + (Z.of_nat C * wo + ((Z.of_nat R - 1) * (Z.of_nat C * (wt + wa)) + V)))).
  - assert (P1 : 0 <= Z.of_nat C * wo) by nia. assert (P2 : 0 <= (Z.of_nat R - 1) * (Z.of_nat C * (wt + wa))) by (apply wpos; nia).
    apply cost_candthen; [cbn; lia|lia|]. intros s Hs. assert (Ss : sized R C s) by (rewrite Hs; cbn [cfree fst]; apply swap_keeps; split; auto). clear Hs.
    apply cost_ceval; [cbn; lia|lia|]. intros v _. apply cost_candthen; [|lia|].
    + destruct Ss as [Ss1 Ss2]. rewrite Ss2, <- zsum_const with (a := O). apply (cost_cfor (fun _ => True)); auto. intros. apply cost_assign.
    + intros t Ht. assert (St : sized R C t). { rewrite Ht. apply (cfor_keeps (sized R C)); auto. intros. apply assign_c_keeps. auto. }
      apply cost_candthen; [apply cost_rref_clear; auto; lia|lia|]. intros u Hu. apply IH; [|lia..]. rewrite Hu, rref_clear_e. apply rref_clear_keeps, St.
  - unfold V, B, K. fold K. 
    replace (Z.of_nat C - Z.of_nat (q + 1)) with (Z.of_nat C - Z.of_nat q - 1) by lia.
    replace (wc * (Z.of_nat R * (Z.of_nat C - Z.of_nat q - 1))) with (wc * (Z.of_nat R * (Z.of_nat C - Z.of_nat p)) - wc * (Z.of_nat R * (Z.of_nat q + 1 - Z.of_nat p))) by ring.
    assert (K + Z.min (Z.of_nat n) (Z.of_nat C - Z.of_nat q - 1) * K <= Z.min (Z.of_nat (S n)) (Z.of_nat C - Z.of_nat p) * K); [|unfold K in *; lia].
    replace (K + _) with (K * (1 + Z.min (Z.of_nat n) (Z.of_nat C - Z.of_nat q - 1))) by ring. rewrite (Z.mul_comm (Z.min _ _) K). apply wmono; lia.
Qed.
Lemma cost_inplace_rref (m : M) : let r := Z.of_nat (rows m) in let c := Z.of_nat (cols m) in
  snd (inplace_rref_c E w m) <= Z.min r c * (c * wo + (r - 1) * (c * (wt + wa))) + r * c * wc.
Proof.
  cbn zeta. assert (C := cost_rref_rows (rows m) (cols m) (rows m) 0 0 m). rewrite Z.sub_0_r in C. unfold inplace_rref_c.
  etransitivity; [apply C; [split; auto|lia..]|]. apply Z.eq_le_incl. ring.
Qed.
Lemma rref_bound_pos r c : 0 <= r -> 0 <= c -> 0 <= Z.min r c * (c * wo + (r - 1) * (c * (wt + wa))) + r * c * wc.
Proof.
  ws. intros Hr Hc. assert (0 <= r * c * wc) by nia. destruct (Z.eq_dec r 0) as [->|]; [rewrite Z.min_l by lia; lia|].
  assert (0 <= Z.min r c * (c * wo + (r - 1) * (c * (wt + wa)))); [|lia]. apply wpos; [lia|]. assert (0 <= c * wo) by nia. assert (0 <= (r - 1) * (c * (wt + wa))) by (apply wpos; nia). lia.
Qed.
Lemma cost_rref (m : M) : let r := Z.of_nat (rows m) in let c := Z.of_nat (cols m) in
  snd (rref_c E w m) <= Z.min r c * (c * wo + (r - 1) * (c * (wt + wa))) + r * c * wc.
Proof.
  cbn zeta. assert (Q := rref_bound_pos (Z.of_nat (rows m)) (Z.of_nat (cols m))). unfold rref_c.
  match goal with |- _ <= ?b => replace b with (0 + b) by lia end. apply cost_cbind; [cbn; lia|lia|].
  intros d Hd. cbn [free fst] in Hd. apply copy_sized in Hd. destruct Hd as [D1 D2]. cbn [cfinal snd]. assert (C := cost_inplace_rref d). cbn zeta in C. rewrite D1, D2 in C. exact C.
Qed.
Lemma cost_inverse (m : M) : let n := Z.of_nat (rows m) in
  snd (inverse_c E w m) <= n * (2 * n * wo + (n - 1) * (2 * n * (wt + wa))) + 3 * n * n * wc.
Proof.
  ws. cbn zeta. set (n := Z.of_nat (rows m)). assert (N0 : 0 <= n) by lia.
  assert (P1 : 0 <= n * (2 * n * wo + (n - 1) * (2 * n * (wt + wa)))).
  { destruct (Z.eq_dec n 0) as [->|]; [lia|]. apply wpos; [lia|]. assert (0 <= 2 * n * wo) by nia. assert (0 <= (n - 1) * (2 * n * (wt + wa))) by (apply wpos; nia). lia. }
  assert (P2 : 0 <= n * n * wc) by nia. unfold inverse_c.
  destruct (Nat.eqb_spec (rows m) (cols m)) as [Q|Q]; cbn [negb]; [|cbn [free tick cfree snd]; lia].
  replace (_ + _) with (0 + (0 + ((n * (2 * n * wo + (n - 1) * (2 * n * (wt + wa))) + 2 * (n * n * wc)) + n * n * wc))) by ring.
  apply cost_cbind; [cbn [free tick cfree snd]; lia|lia|]. intros idm Hi. cbn [free fst] in Hi. apply identity_sized in Hi. destruct Hi as [I1 I2].
  apply cost_cbind; [cbn [free tick cfree snd]; lia|lia|]. intros g Hg. cbn [free fst] in Hg. apply augmented_sized in Hg. rewrite I2, <- Q in Hg. destruct Hg as [G1 G2].
  apply cost_cbind; [|lia|].
  - cbn [cfinal snd]. assert (C := cost_inplace_rref g). cbn zeta in C. rewrite G1, G2 in C. etransitivity; [exact C|].
    replace (Z.of_nat (rows m + rows m)) with (2 * n) by lia. fold n. rewrite Z.min_l by lia. apply Z.eq_le_incl. ring.
  - intros r _. cbn [cfinal snd]. rewrite <- Q. replace (n * n * wc) with (Z.of_nat (rows m) * (Z.of_nat (rows m) * wc)) by (unfold n; ring).
    rewrite <- zsum_const with (a := O). apply (cost_cfor (fun _ => True)); auto; [intros; nia|]. intros i s _ _.
    rewrite <- zsum_const with (a := O). apply (cost_cfor (fun _ => True)); auto. intros j t _ _.
    replace wc with ((0 + (0 + wc)) + 0) by lia. apply cost_ceval; [|lia|].
    + apply cost_cbind; [cbn [free tick cfree snd]; lia|lia|intros]. apply cost_cbind; [cbn [free tick cfree snd]; lia|lia|intros]. cbn. lia.
    + intros [] _; [|cbn [free tick cfree snd]; lia]. change 0 with (0 + 0). apply cost_ceval; [cbn [free tick cfree snd]; lia|lia|]. intros. cbn. lia.
Qed.

(** *** Cofactor expansion *)
Lemma expansion_ops_pos n : 0 <= expansion_ops w n.
Proof.
  ws. induction n as [|[|[|n]] IH]; [cbn [expansion_ops]; lia..|]. change (expansion_ops w (S (S (S n)))) with (Z.of_nat (S (S (S n))) * (expansion_ops w (S (S n)) + wc + wt + wa)). apply wpos; lia.
Qed.
Lemma cost_expansion rec (m : M) n ent mnr : rows m = n -> (forall k s, mnr k = Ok s -> rows s = (n - 1)%nat) -> (forall s, rows s = (n - 1)%nat -> snd (rec s) <= expansion_ops w (n - 1)) ->
  snd (expansion_c E w rec m n ent mnr) <= expansion_ops w n.
Proof.
  ws. intros Hn Hm Hr. assert (P := expansion_ops_pos n). assert (P' := expansion_ops_pos (n - 1)). unfold expansion_c. rewrite Hn. destruct (negb _); [exact P|].
  destruct (Nat.eqb_spec n 1) as [E1|E1]; [exact P|]. destruct (Nat.eqb_spec n 2) as [E2|E2]; [subst n; rewrite E2; apply cost_det2|].
  destruct n as [|[|[|n]]]; [apply Z.le_refl|lia|lia|].
  change (expansion_ops w (S (S (S n)))) with (Z.of_nat (S (S (S n))) * (expansion_ops w (S (S n)) + wc + wt + wa)). replace (S (S (S n)) - 1)%nat with (S (S n)) in * by lia.
  set (F := expansion_ops w (S (S n))) in *. clearbody F. cbn [cfinal snd]. rewrite <- zsum_const with (a := O). apply (cost_cfor (fun _ => True)); auto; [intros; lia|].
  intros i s _ _. replace (F + wc + wt + wa) with (0 + (wc + ((0 + (F + (wt + wa))) + 0))) by lia.
  apply cost_ceval; [cbn; lia|lia|intros]. apply cost_ceval; [cbn; lia|lia|]. intros [] _; [cbn [cdone snd]; lia|]. apply cost_ceval; [|lia|intros; cbn; lia].
  apply cost_cbind; [cbn; lia|lia|]. intros u Hu. cbn [free fst] in Hu. apply cost_cbind; [apply Hr, (Hm i), Hu|lia|intros]. apply cost_cbind; [cbn; lia|lia|intros]. cbn. lia.
Qed.
Lemma cost_row_expansion fuel : forall m : M, snd (row_expansion_c E w fuel m) <= expansion_ops w (rows m).
Proof.
  induction fuel as [|fuel IH]; intros m; [apply expansion_ops_pos|]. cbn [row_expansion_c].
  destruct (Nat.eqb_spec (rows m) (cols m)) as [Q|Q].
  - rewrite <- Q. apply cost_expansion; auto.
    + intros k s H. apply minor_sized in H. apply H.
    + intros s <-. apply IH.
  - unfold expansion_c. apply Nat.eqb_neq in Q. rewrite Q. apply expansion_ops_pos.
Qed.
Lemma cost_col_expansion fuel : forall m : M, snd (col_expansion_c E w fuel m) <= expansion_ops w (rows m).
Proof.
  induction fuel as [|fuel IH]; intros m; [apply expansion_ops_pos|]. cbn [col_expansion_c]. apply cost_expansion; auto.
  - intros k s H. apply minor_sized in H. apply H.
  - intros s <-. apply IH.
Qed.
End Bounds.

(** *** Exact counts *)
Lemma exact_cbind {A B} (m : counted A) (f : A -> counted B) v : fst (cbind m f) = Ok v -> exists a, fst m = Ok a /\ fst (f a) = Ok v /\ snd (cbind m f) = snd m + snd (f a).
Proof. destruct m as [[a| | | |] n]; cbn; try discriminate. eauto. Qed.
Lemma exact_ceval {S A} (s : S) (m : counted A) k t : fst (ceval s m k) = (t, Ok tt) -> exists a, fst m = Ok a /\ fst (k a) = (t, Ok tt) /\ snd (ceval s m k) = snd m + snd (k a).
Proof. destruct m as [[a| | | |] n]; cbn; try discriminate. eauto. Qed.
Lemma exact_candthen {S} (p : outcome S * Z) k t : fst (candthen p k) = (t, Ok tt) -> exists s, fst p = (s, Ok tt) /\ fst (k s) = (t, Ok tt) /\ snd (candthen p k) = snd p + snd (k s).
Proof. destruct p as [[s [[]| | | |]] n]; cbn; try discriminate. eauto. Qed.
Lemma exact_cfor {S} c n : forall a (body : nat -> S -> outcome S * Z) (s t : S), (forall i s t, (a <= i < a + n)%nat -> fst (body i s) = (t, Ok tt) -> snd (body i s) = c) ->
  fst (cfor n a body s) = (t, Ok tt) -> snd (cfor n a body s) = Z.of_nat n * c.
Proof.
  induction n as [|n IH]; intros a body s t H K; [reflexivity|]. cbn [cfor] in *. apply exact_candthen in K. destruct K as (u & H1 & H2 & ->).
  apply H in H1; [|lia]. rewrite H1. apply IH in H2; [lia|]. intros i x y Hi. apply H. lia.
Qed.
Lemma exact_cfinal {S} (p : outcome S * Z) s : fst (cfinal p) = Ok s -> fst p = (s, Ok tt).
Proof. destruct p as [[t [[]| | | |]] n]; cbn; try discriminate. now intros [= ->]. Qed.

Section Exact.
Context {T : Type} (E : ops T) (w : kind -> Z).
Local Notation M := (Mat T).
Lemma exact_assign k op (m : M) i j y t : fst (assign_entry_c w k op m i j y) = (t, Ok tt) -> snd (assign_entry_c w k op m i j y) = w k.
Proof. intros H. apply exact_ceval in H. destruct H as (a & H1 & _ & H2). unfold assign_entry_c. rewrite H2. apply exact_cbind in H1. destruct H1 as (b & _ & _ & ->). cbn. lia. Qed.
Lemma exact_product (a b m : M) : fst (M_product_c E w a b) = Ok m -> snd (M_product_c E w a b) = Z.of_nat (rows a) * (Z.of_nat (cols a) * (Z.of_nat (cols b) * (w Times + w AddSub))).
Proof.
  unfold M_product_c. destruct (negb _); [discriminate|]. intros H. apply exact_cbind in H. destruct H as (r & _ & H2 & ->). cbn [free snd cfinal]. apply exact_cfinal in H2. rewrite Z.add_0_l.
  eapply exact_cfor; [|exact H2]. clear. intros i s t _ H. eapply exact_cfor; [|exact H]. clear. intros k s t _ H. eapply exact_cfor; [|exact H]. clear. intros j s t _ H.
  apply exact_ceval in H. destruct H as (x & H1 & H2 & ->). apply exact_assign in H2. rewrite H2. apply exact_cbind in H1. destruct H1 as (y & _ & H1 & ->). apply exact_cbind in H1. destruct H1 as (z & _ & _ & ->). cbn [free tick snd]. lia.
Qed.
Lemma exact_det2 (m : M) v : fst (det2_c E w m) = Ok v -> snd (det2_c E w m) = 2 * w Times + w AddSub.
Proof.
  unfold det2_c. intros H. do 6 (apply exact_cbind in H; destruct H as (? & _ & H & ->)). cbn [free tick snd]. lia.
Qed.
(** All entries exist and compare different from zero. *)
Definition nonzero (x : T) (_ : unit) : Prop := eqb E x (of_int E 0) = Ok false.
Lemma exact_expansion rec (m : M) n ent mnr v : rows m = n -> cols m = n -> (forall k x, (k < n)%nat -> ent k = Ok x -> nonzero x tt) ->
  (forall k s u, (3 <= n)%nat -> (k < n)%nat -> mnr k = Ok s -> fst (rec s) = Ok u -> snd (rec s) = expansion_ops w (n - 1)) ->
  fst (expansion_c E w rec m n ent mnr) = Ok v -> snd (expansion_c E w rec m n ent mnr) = expansion_ops w n.
Proof.
  intros Hr Hc He Hm. unfold expansion_c. rewrite Hr, Hc, Nat.eqb_refl. cbn [negb].
  destruct (Nat.eqb_spec n 1) as [->|E1]; [reflexivity|]. destruct (Nat.eqb_spec n 2) as [E2|E2]; [intros H; apply exact_det2 in H; rewrite H, E2; reflexivity|].
  intros H. apply exact_cfinal in H. cbn [cfinal snd]. destruct n as [|[|[|n]]]; [reflexivity|lia|lia|].
  change (expansion_ops w (S (S (S n)))) with (Z.of_nat (S (S (S n))) * (expansion_ops w (S (S n)) + w Compare + w Times + w AddSub)). replace (S (S (S n)) - 1)%nat with (S (S n)) in * by lia.
  set (N := S (S (S n))) in *. set (F := expansion_ops w (S (S n))) in *. eapply exact_cfor; [|exact H]. clear H. intros i s t Hi H.
  apply exact_ceval in H. destruct H as (x & Hx & H & ->). cbn [free fst] in Hx. apply He in Hx; [|lia]. apply exact_ceval in H. destruct H as (z & Hz & H & ->). cbn [tick fst] in Hz.
  rewrite Hx in Hz. injection Hz as <-. apply exact_ceval in H. destruct H as (y & H & _ & ->). apply exact_cbind in H. destruct H as (u & Hu & H & ->). apply exact_cbind in H. destruct H as (d & Hd & H & ->).
  apply exact_cbind in H. destruct H as (e & _ & _ & ->). cbn [free fst] in Hu. rewrite (Hm i u d) by (auto; lia). cbn [free tick cdone snd]. lia.
Qed.
Lemma minor_nonzero n (m : M) i j s : mat_of nonzero m n n (fun _ _ => tt) -> (0 < n)%nat -> first_minor E m i j = Ok s -> mat_of nonzero s (n - 1) (n - 1) (fun _ _ => tt).
Proof.
  intros Hm Hn H. destruct (first_minor_ok E (fun _ => False) nonzero m n n (fun _ _ => tt) i j) as [(d & H1 & H2)|(h & [] & _)]; auto. congruence.
Qed.
Lemma entry_nonzero n (m : M) i j x : mat_of nonzero m n n (fun _ _ => tt) -> (i < n)%nat -> (j < n)%nat -> entry m i j = Ok x -> nonzero x tt.
Proof.
  intros Hm Hi Hj H. destruct (entry_of (fun _ => False) nonzero m n n (fun _ _ => tt) i j) as [(d & H1 & H2)|(h & [] & _)]; auto. congruence.
Qed.
Lemma exact_row_expansion fuel : forall n (m : M) v, mat_of nonzero m n n (fun _ _ => tt) -> fst (row_expansion_c E w fuel m) = Ok v -> snd (row_expansion_c E w fuel m) = expansion_ops w n.
Proof.
  induction fuel as [|fuel IH]; intros n m v Hm H; [discriminate|]. cbn [row_expansion_c] in *. destruct (mat_of_dims nonzero m n n _ Hm) as (Hr & Hc & _). rewrite Hc in *.
  eapply exact_expansion; eauto.
  - intros k x Hk. apply entry_nonzero with n; auto. lia.
  - intros k s u H3 Hk Hs Hu. eapply IH; [|exact Hu]. eapply minor_nonzero; [exact Hm|lia|exact Hs].
Qed.
Lemma exact_col_expansion fuel : forall n (m : M) v, mat_of nonzero m n n (fun _ _ => tt) -> fst (col_expansion_c E w fuel m) = Ok v -> snd (col_expansion_c E w fuel m) = expansion_ops w n.
Proof.
  induction fuel as [|fuel IH]; intros n m v Hm H; [discriminate|]. cbn [col_expansion_c] in *. destruct (mat_of_dims nonzero m n n _ Hm) as (Hr & Hc & _). rewrite Hr in *.
  eapply exact_expansion; eauto.
  - intros k x Hk. apply entry_nonzero with n; auto. lia.
  - intros k s u H3 Hk Hs Hu. eapply IH; [|exact Hu]. eapply minor_nonzero; [exact Hm|lia|exact Hs].
Qed.
End Exact.

(** n! *)
Lemma factorial_ops n : (2 <= n)%nat -> 3 * Z.of_nat (fact n) <= 2 * expansion_ops every_operation n <= 8 * Z.of_nat (fact n) - 9.
Proof.
  induction n as [|n IH]; intros H; [lia|]. destruct (Nat.eq_dec n 1) as [->|N1]; [vm_compute; split; discriminate|].
  destruct n as [|[|n]]; [lia|lia|]. change (expansion_ops every_operation (S (S (S n)))) with (Z.of_nat (S (S (S n))) * (expansion_ops every_operation (S (S n)) + 1 + 1 + 1)).
  replace (Z.of_nat (fact (S (S (S n))))) with (Z.of_nat (S (S (S n))) * Z.of_nat (fact (S (S n)))) by (rewrite <- Nat2Z.inj_mul; reflexivity).
  specialize (IH ltac:(lia)). nia.
Qed.
