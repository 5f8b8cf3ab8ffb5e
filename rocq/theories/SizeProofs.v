(** Proofs about size_t arithmetic in Mat. *)
From Verif Require Import Base IntModel ElemModel ElemSpec ElemProofs VecModel MatModel MatSpec MatProofs SizeModel.

Lemma offset64_eq c i j : 0 <= i -> 0 <= j -> 0 <= c -> offset64 c i j = (i * c + j) mod 2 ^ 64.
Proof. intros. unfold offset64, size. rewrite Zplus_mod_idemp_l. reflexivity. Qed.
Lemma index_bound r c i j : 0 <= i < r -> 0 <= j < c -> 0 <= i * c + j < r * c.
Proof. intros. nia. Qed.
Lemma offset64_small r c i j : 0 <= i < r -> 0 <= j < c -> r * c < 2 ^ 64 -> offset64 c i j = i * c + j /\ allocated r c = r * c.
Proof.
  intros Hi Hj H. pose proof (index_bound r c i j Hi Hj). rewrite offset64_eq by lia. unfold allocated, size.
  split; apply Z.mod_small; lia.
Qed.
(** the first element beyond the array, in row-major order *)
Lemma beyond r c : 0 < r < 2 ^ 64 -> 0 < c < 2 ^ 64 -> 2 ^ 64 <= r * c ->
  let k := allocated r c in 0 <= k / c < r /\ 0 <= k mod c < c /\ offset64 c (k / c) (k mod c) = k.
Proof.
  intros Hr Hc H k. assert (Hk : 0 <= k < 2 ^ 64) by (apply Z.mod_pos_bound; lia).
  assert (Hd : k = c * (k / c) + k mod c) by (apply Z.div_mod; lia). pose proof (Z.mod_pos_bound k c ltac:(lia)) as Hm.
  assert (Hq : 0 <= k / c) by (apply Z.div_pos; lia). split; [split; [exact Hq|]|split; [exact Hm|]].
  - apply Z.div_lt_upper_bound; lia.
  - rewrite offset64_eq by lia. rewrite Z.mul_comm, <- Hd. apply Z.mod_small. exact Hk.
Qed.
Lemma in_bounds_iff r c : 0 <= r < 2 ^ 64 -> 0 <= c < 2 ^ 64 ->
  ((forall i j, 0 <= i < r -> 0 <= j < c -> offset64 c i j < allocated r c) <-> r * c < 2 ^ 64).
Proof.
  intros Hr Hc. split.
  - intros H. destruct (Z_lt_le_dec (r * c) (2 ^ 64)) as [L|L]; [exact L|]. exfalso.
    destruct (beyond r c) as (Hi & Hj & E); [nia|nia|exact L|]. specialize (H _ _ Hi Hj). lia.
  - intros H i j Hi Hj. destruct (offset64_small r c i j Hi Hj H) as [-> ->]. apply index_bound; assumption.
Qed.
Lemma offset64_inj r c i j i' j' : 0 <= i < r -> 0 <= j < c -> 0 <= i' < r -> 0 <= j' < c -> r * c < 2 ^ 64 ->
  offset64 c i j = offset64 c i' j' -> i = i' /\ j = j'.
Proof.
  intros Hi Hj Hi' Hj' H E. destruct (offset64_small r c i j Hi Hj H) as [E1 _]. destruct (offset64_small r c i' j' Hi' Hj' H) as [E2 _].
  rewrite E1, E2 in E. assert (i = i'); [|split; [assumption|nia]]. destruct (Z.lt_trichotomy i i') as [L|[L|L]]; [nia|exact L|nia].
Qed.

(** *** the natural-number model *)
Section Mat.
Context {T : Type} (E : ops T).
Definition as64 (m : Mat T) : Mat64 T := mkMat64 (Z.of_nat (rows m)) (Z.of_nat (cols m)) (data m).
Definition fits (m : Mat T) : Prop := length (data m) = (rows m * cols m)%nat /\ Z.of_nat (rows m) * Z.of_nat (cols m) < 2 ^ 64.
Lemma new64 r c : Z.of_nat r * Z.of_nat c < 2 ^ 64 -> Mat64_new E (Z.of_nat r) (Z.of_nat c) = as64 (Mat_new E r c).
Proof.
  intros H. unfold Mat64_new, as64, Mat_new, allocated, size. cbn [rows cols data]. rewrite Z.mod_small by lia. rewrite <- Nat2Z.inj_mul, Nat2Z.id. reflexivity.
Qed.
Lemma offset_nat (m : Mat T) i j : (i < rows m)%nat -> (j < cols m)%nat -> Z.of_nat (rows m) * Z.of_nat (cols m) < 2 ^ 64 ->
  Z.to_nat (offset64 (Z.of_nat (cols m)) (Z.of_nat i) (Z.of_nat j)) = offset m i j.
Proof.
  intros Hi Hj H. destruct (offset64_small (Z.of_nat (rows m)) (Z.of_nat (cols m)) (Z.of_nat i) (Z.of_nat j)) as [-> _]; [lia|lia|exact H|].
  unfold offset. rewrite <- Nat2Z.inj_mul, <- Nat2Z.inj_add. apply Nat2Z.id.
Qed.
Lemma entry_nat (m : Mat T) i j : (i < rows m)%nat -> (j < cols m)%nat -> fits m -> entry64 (as64 m) (Z.of_nat i) (Z.of_nat j) = entry m i j.
Proof. intros Hi Hj [_ H]. unfold entry64, entry. cbn [as64 cols64 data64]. rewrite offset_nat by assumption. reflexivity. Qed.
Definition lift (p : outcome (Mat T)) : outcome (Mat64 T) := (as64 (fst p), snd p).
Lemma set_entry_nat (m : Mat T) i j x : (i < rows m)%nat -> (j < cols m)%nat -> fits m ->
  set_entry64 (as64 m) (Z.of_nat i) (Z.of_nat j) x = lift (set_entry m i j x) /\ fits (fst (set_entry m i j x)) /\
  rows (fst (set_entry m i j x)) = rows m /\ cols (fst (set_entry m i j x)) = cols m.
Proof.
  intros Hi Hj [L H]. unfold set_entry64, set_entry. cbn [as64 cols64 data64 rows64]. rewrite offset_nat by assumption.
  destruct (offset m i j <? length (data m))%nat; cbn; (split; [reflexivity|]); [|repeat split; auto].
  split; [split; [cbn; rewrite length_replace; exact L|exact H]|split; reflexivity].
Qed.
Lemma loop_nat (P : Mat T -> Prop) (f : nat -> Mat T -> outcome (Mat T)) (g : nat -> Mat64 T -> outcome (Mat64 T)) n : forall a m,
  P m -> (forall k m, (a <= k < a + n)%nat -> P m -> g k (as64 m) = lift (f k m) /\ P (fst (f k m))) ->
  for_ n a g (as64 m) = lift (for_ n a f m) /\ P (fst (for_ n a f m)).
Proof.
  induction n as [|n IH]; intros a m Pm Hf; cbn [for_]; [split; [reflexivity|exact Pm]|].
  destruct (Hf a m) as [E1 P1]; [lia|exact Pm|]. rewrite E1. unfold lift. destruct (f a m) as [m' [[]| | | |]]; cbn [fst snd] in *; unfold andthen; cbn [fst snd]; try (split; [reflexivity|exact P1]).
  apply IH; [exact P1|]. intros k m'' Hk. apply Hf. lia.
Qed.
Lemma set_all_nat (m : Mat T) v : fits m -> set_all64 (as64 m) v = lift (mat_setEntries_val m v).
Proof.
  intros F. unfold set_all64, mat_setEntries_val, fill, for2. cbn [as64 rows64 cols64]. rewrite !Nat2Z.id.
  refine (proj1 (loop_nat (fun x => fits x /\ rows x = rows m /\ cols x = cols m) _ _ (rows m) 0 m (conj F (conj eq_refl eq_refl)) _)).
  intros i x Hi Hx. apply (loop_nat (fun x => fits x /\ rows x = rows m /\ cols x = cols m)); [exact Hx|]. intros j y Hj (Fy & Ry & Cy). cbn [eval].
  destruct (set_entry_nat y i j v) as (E1 & F1 & R1 & C1); [lia|lia|exact Fy|]. split; [exact E1|]. split; [exact F1|]. rewrite R1, C1. auto.
Qed.
Lemma val64 r c v : Z.of_nat r * Z.of_nat c < 2 ^ 64 -> exists m, Mat_val E r c v = Ok m /\ Mat64_val E (Z.of_nat r) (Z.of_nat c) v = Ok (as64 m).
Proof.
  intros H. assert (F : fits (Mat_new E r c)) by (split; [cbn; apply repeat_length|exact H]).
  unfold Mat64_val. rewrite new64 by exact H. rewrite set_all_nat by exact F.
  destruct (Mat_val_ok E never eq r c v v eq_refl) as [(m & Em & _)|(h & [] & _)].
  exists m. split; [exact Em|]. unfold Mat_val, final, lift in *. cbn [fst snd]. destruct (mat_setEntries_val (Mat_new E r c) v) as [m' [[]| | | |]]; cbn in *; congruence.
Qed.

(** *** too many entries *)
Lemma loop_UB {S} (P : S -> Prop) (body : nat -> S -> outcome S) n : forall a s, P s ->
  (forall k s, P s -> snd (body k s) = UB \/ (snd (body k s) = Ok tt /\ P (fst (body k s)))) ->
  (snd (for_ n a body s) = UB \/ (snd (for_ n a body s) = Ok tt /\ P (fst (for_ n a body s)))) /\
  ((exists k, (a <= k < a + n)%nat /\ forall s, P s -> snd (body k s) = UB) -> snd (for_ n a body s) = UB).
Proof.
  induction n as [|n IH]; intros a s Ps Hb; cbn [for_].
  - split; [right; auto|]. intros (k & Hk & _). lia.
  - destruct (Hb a s Ps) as [U|[O P1]].
    + unfold andthen. destruct (body a s) as [s1 o]. cbn [snd] in U. rewrite U. cbn. auto.
    + destruct (IH (Datatypes.S a) (fst (body a s)) P1 Hb) as [I1 I2].
      unfold andthen. destruct (body a s) as [s1 o] eqn:Eb. cbn [snd fst] in *. rewrite O. split; [exact I1|].
      intros (k & Hk & HU). destruct (Nat.eq_dec k a) as [->|Ne].
      * specialize (HU s Ps). rewrite Eb in HU. cbn in HU. congruence.
      * apply I2. exists k. split; [lia|exact HU].
Qed.
Lemma val64_UB r c v : 0 <= r < 2 ^ 64 -> 0 <= c < 2 ^ 64 -> 2 ^ 64 <= r * c -> Mat64_val E r c v = UB.
Proof.
  intros Hr Hc H. destruct (beyond r c) as (Hi & Hj & Ek); [nia|nia|exact H|]. set (k := allocated r c) in *.
  set (P := fun m : Mat64 T => cols64 m = c /\ length (data64 m) = Z.to_nat k).
  assert (Step : forall i j m, P m -> snd (set_entry64 m i j v) = UB \/ (snd (set_entry64 m i j v) = Ok tt /\ P (fst (set_entry64 m i j v)))).
  { intros i j m [P1 P2]. unfold set_entry64. destruct (_ <? _)%nat; [right|left; reflexivity]. split; [reflexivity|]. split; [exact P1|]. cbn. rewrite length_replace. exact P2. }
  assert (P0 : P (Mat64_new E r c)) by (split; [reflexivity|apply repeat_length]).
  assert (Q : snd (set_all64 (Mat64_new E r c) v) = UB).
  { unfold set_all64. cbn [Mat64_new rows64 cols64]. refine (proj2 (loop_UB P _ _ _ _ P0 _) _).
    - intros i m Pm. exact (proj1 (loop_UB P _ _ _ _ Pm (fun j m Pm => Step _ _ m Pm))).
    - exists (Z.to_nat (k / c)). split; [lia|]. intros m Pm. refine (proj2 (loop_UB P _ _ _ _ Pm (fun j m Pm => Step _ _ m Pm)) _).
      exists (Z.to_nat (k mod c)). split; [lia|]. intros m' [P1 P2]. unfold set_entry64. rewrite P1, P2, !Z2Nat.id by lia. rewrite Ek.
      rewrite (proj2 (Nat.ltb_ge _ _) (le_n _)). reflexivity. }
  unfold Mat64_val, final. rewrite Q. reflexivity.
Qed.
End Mat.

(** *** the indices of first_minor *)
Lemma minor_index_small i m : 0 <= i -> 0 <= m -> m + 1 < 2 ^ 31 -> minor_index i m = if i <=? m then m + 1 else m.
Proof.
  intros Hi Hm H. unfold minor_index, to_int, size. rewrite (Z.mod_small (m + 1) (2 ^ 64)) by lia.
  set (x := if i <=? m then m + 1 else m). assert (0 <= x < 2 ^ 31) by (unfold x; destruct (i <=? m); lia).
  rewrite (Z.mod_small x (2 ^ 32)) by lia. replace (x <? 2 ^ 31) with true by lia. apply Z.mod_small. lia.
Qed.
Lemma minor_index_wrong i m : 0 <= i <= m -> 2 ^ 31 <= m + 1 < 2 ^ 32 -> minor_index i m = m + 1 - 2 ^ 32 + 2 ^ 64.
Proof.
  intros Hi H. unfold minor_index, to_int, size. replace (i <=? m) with true by lia. rewrite (Z.mod_small (m + 1) (2 ^ 64)) by lia.
  rewrite (Z.mod_small (m + 1) (2 ^ 32)) by lia. replace (m + 1 <? 2 ^ 31) with false by lia.
  symmetry. apply (Z.mod_unique _ _ (-1)); lia.
Qed.
Lemma minor_nat {T} (E : ops T) (x : Mat T) i j : (0 < rows x)%nat -> (0 < cols x)%nat -> Z.of_nat (rows x) <= 2 ^ 31 -> Z.of_nat (cols x) <= 2 ^ 31 ->
  length (data x) = (rows x * cols x)%nat -> (i < rows x)%nat -> (j < cols x)%nat ->
  first_minor64 E (as64 x) (Z.of_nat i) (Z.of_nat j) = (m <- first_minor E x i j ;; Ok (as64 m)).
Proof.
  intros Hr Hc Lr Lc L Hi Hj. assert (Fx : fits x) by (split; [exact L|nia]).
  unfold first_minor64. cbn [as64 rows64 cols64 Mat64_new]. unfold size.
  rewrite (Z.mod_small (Z.of_nat (rows x) - 1)), (Z.mod_small (Z.of_nat (cols x) - 1)) by lia.
  replace (Z.of_nat (rows x) - 1) with (Z.of_nat (rows x - 1)) by lia. replace (Z.of_nat (cols x) - 1) with (Z.of_nat (cols x - 1)) by lia.
  assert (B : Z.of_nat (rows x - 1) * Z.of_nat (cols x - 1) < 2 ^ 64) by nia.
  fold (Mat64_new E (Z.of_nat (rows x - 1)) (Z.of_nat (cols x - 1))). rewrite (new64 E) by exact B. rewrite !Nat2Z.id.
  unfold first_minor. replace ((rows x =? 0) || (cols x =? 0))%nat with false by (symmetry; apply orb_false_intro; apply Nat.eqb_neq; lia).
  set (r0 := Mat_new E (rows x - 1) (cols x - 1)). unfold fill, for2.
  assert (G : forall i m, (m + 1 < rows x \/ m + 1 < cols x)%nat -> minor_index (Z.of_nat i) (Z.of_nat m) = Z.of_nat (skip i m)).
  { intros a m H. rewrite minor_index_small by lia. unfold skip. destruct (Nat.leb_spec a m); [replace (Z.of_nat a <=? Z.of_nat m) with true by lia|replace (Z.of_nat a <=? Z.of_nat m) with false by lia]; lia. }
  set (P := fun y : Mat T => fits y /\ rows y = (rows x - 1)%nat /\ cols y = (cols x - 1)%nat).
  assert (P0 : P r0) by (split; [split; [cbn; apply repeat_length|exact B]|split; reflexivity]).
  match goal with |- final (for_ ?n ?a ?g (as64 ?m)) = (_ <- final (for_ _ _ ?f _) ;; _) => destruct (loop_nat P f g n a m P0) as [-> _] end.
  { intros m y Hm Py. apply (loop_nat P); [exact Py|]. intros n w Hn (Fw & Rw & Cw).
    rewrite !G by lia. rewrite entry_nat; [|unfold skip; destruct (i <=? m)%nat; lia|unfold skip; destruct (j <=? n)%nat; lia|exact Fx].
    destruct (entry x (skip i m) (skip j n)) as [v| | | |]; cbn [eval]; try (split; [reflexivity|split; [exact Fw|split; [exact Rw|exact Cw]]]).
    destruct (set_entry_nat w m n v) as (E1 & F1 & R1 & C1); [lia|lia|exact Fw|]. split; [exact E1|]. split; [exact F1|]. rewrite R1, C1. auto. }
  unfold lift, final. cbn [fst snd]. destruct (snd _); reflexivity.
Qed.
(** more than 2^31 rows *)
Lemma minor_UB {T} (E : ops T) (x : Mat64 T) i j : 2 ^ 31 < rows64 x -> 2 <= cols64 x -> rows64 x * cols64 x <= 2 ^ 63 -> cols64 x <= 2 ^ 31 ->
  length (data64 x) = Z.to_nat (rows64 x * cols64 x) -> 0 <= i < 2 ^ 31 -> 0 <= j < cols64 x -> first_minor64 E x i j = UB.
Proof.
  intros Hr Hc B C31 L Hi Hj. set (r := rows64 x) in *. set (c := cols64 x) in *.
  assert (Rl : r <= 2 ^ 62) by nia.
  unfold first_minor64. fold r c. cbn [Mat64_new rows64 cols64]. unfold size. rewrite (Z.mod_small (r - 1)), (Z.mod_small (c - 1)) by lia.
  fold (Mat64_new E (r - 1) (c - 1)).
  set (P := fun m : Mat64 T => cols64 m = c - 1 /\ length (data64 m) = Z.to_nat ((r - 1) * (c - 1))).
  assert (P0 : P (Mat64_new E (r - 1) (c - 1))).
  { split; [reflexivity|]. cbn. rewrite repeat_length. unfold allocated, size. rewrite Z.mod_small; [reflexivity|nia]. }
  assert (Step : forall i' j' m n y, P y -> let o := eval y (entry64 x i' j') (fun v => set_entry64 y m n v) in snd o = UB \/ (snd o = Ok tt /\ P (fst o))).
  { intros i' j' m n y [P1 P2]. unfold entry64, read. destruct (nth_error _ _) as [[v|]|]; cbn [eval]; try (left; reflexivity).
    unfold set_entry64. destruct (_ <? _)%nat; [right|left; reflexivity]. split; [reflexivity|]. split; [exact P1|]. cbn. rewrite length_replace. exact P2. }
  match goal with |- final (for_ ?n 0 ?f ?m) = UB => assert (Q : snd (for_ n 0 f m) = UB) end; [|unfold final; rewrite Q; reflexivity].
  refine (proj2 (loop_UB P _ _ _ _ P0 _) _).
  - intros m y Py. exact (proj1 (loop_UB P _ _ _ _ Py (fun n y Py => Step _ _ _ _ y Py))).
  - exists (Z.to_nat (2 ^ 31 - 1)). split; [lia|]. intros y Py. refine (proj2 (loop_UB P _ _ _ _ Py (fun n y Py => Step _ _ _ _ y Py)) _).
    exists 0%nat. split; [lia|]. intros w _. rewrite Z2Nat.id by lia. rewrite (minor_index_wrong i (2 ^ 31 - 1)) by lia.
    set (jj := minor_index j (Z.of_nat 0)). assert (J : 0 <= jj <= 1).
    { unfold jj. rewrite minor_index_small by lia. destruct (_ <=? _); lia. }
    assert (K : (Z.to_nat (r * c) <= Z.to_nat (offset64 c (2 ^ 31 - 1 + 1 - 2 ^ 32 + 2 ^ 64) jj))%nat).
    { apply Z2Nat.inj_le; [nia|apply Z.mod_pos_bound; lia|]. rewrite offset64_eq by lia.
      replace (((2 ^ 31 - 1 + 1 - 2 ^ 32 + 2 ^ 64) * c + jj) mod 2 ^ 64) with (2 ^ 64 - 2 ^ 31 * c + jj); [nia|].
      apply (Z.mod_unique _ _ (c - 1)); [left; nia|]. ring. }
    unfold entry64, read. fold c. rewrite (proj2 (nth_error_None _ _)) by (rewrite L; exact K). reflexivity.
Qed.
Lemma minor_empty T (E : ops T) : exists m, first_minor64 E (mkMat64 1 0 []) 0 0 = Ok m /\ rows64 m = 0 /\ cols64 m = 2 ^ 64 - 1.
Proof. eexists. split; [reflexivity|]. split; reflexivity. Qed.
Lemma faithful T (E : ops T) r c : Z.of_nat r * Z.of_nat c < 2 ^ 64 ->
  Mat64_new E (Z.of_nat r) (Z.of_nat c) = as64 (Mat_new E r c) /\
  (forall v, exists m, Mat_val E r c v = Ok m /\ Mat64_val E (Z.of_nat r) (Z.of_nat c) v = Ok (as64 m)) /\
  (forall (m : Mat T) i j, dims m r c -> (i < r)%nat -> (j < c)%nat -> entry64 (as64 m) (Z.of_nat i) (Z.of_nat j) = entry m i j /\
     forall x, set_entry64 (as64 m) (Z.of_nat i) (Z.of_nat j) x = (as64 (fst (set_entry m i j x)), snd (set_entry m i j x))).
Proof.
  intros H. split; [apply new64, H|]. split; [intros v; apply val64, H|].
  intros m i j (Hr & Hc & L) Hi Hj. rewrite <- Hr, <- Hc in *. assert (F : fits m) by (split; assumption). split; [apply entry_nat; assumption|].
  intros x. exact (proj1 (set_entry_nat m i j x Hi Hj F)).
Qed.
