(** Programs of Vec<Int> and Mat<Int> calls without assertions. *)
From Coq Require Import Lia.
From Verif Require Import Base IntModel IntSpec IntBasics IntAddSub IntMul IntDiv IntMod PropsInt IntCalls IntHistory ElemModel ElemSpec ElemProofs ElemInst VecModel MatModel MatSpec MatProofs
  LeaveModel LeaveSpec LeaveProofs SimSpec LinSpec LinCalls LinProofs LinInst ReleaseModel ReleaseSpec ReleaseProofs ReleaseProofs2 ReleaseCallsModel ReleaseCallsSpec ReleaseCallsProofs
  ContReleaseModel ContReleaseSpec ContReleaseProofs ContReleaseInst ContReleaseMore LinReleaseModel LinReleaseSpec.
Local Open Scope Z_scope.

(** *** Elements *)
Definition eop (o : element_op) : lop Int := match o with Sum o => sum_assign o | Product => mul_assign_left | Quotient => div_assign_nd end.
Definition zop (o : element_op) : Z -> Z -> Z := match o with Sum Plus => Z.add | Sum Minus => Z.sub | Product => Z.mul | Quotient => Z.quot end.
Lemma eop_sound o x y b : wf x -> R_any (rd x y) b -> (o = Quotient -> b <> 0) ->
  (exists r, eop o x y = (r, Ok tt) /\ R_any r (zop o (val x) b)) \/
  (exists l, eop o x y = (l, Throw OutOfRange) /\ wf l /\ partly o (val x) b (val l)).
Proof.
  intros Wx [Wy <-] Nz. assert (Wo : forall z, y = Some z -> wf z) by (intros z ->; exact Wy). destruct o as [[]| |]; cbn [eop zop partly sum_assign].
  - destruct (addsub_left_sound false x y Wx Wo) as [(r & E & W & V)|(l & E & W & S1 & S2)]; [left|right]; eexists; unfold add_assign_left; splits; eauto. split; auto.
  - destruct (addsub_left_sound true x y Wx Wo) as [(r & E & W & V)|(l & E & W & S1 & S2)]; [left|right]; eexists; unfold sub_assign_left; splits; eauto. split; auto.
  - left. destruct (mul_assign_ok x y Wx Wo) as (r & E & W & V & _). exists r. unfold mul_assign_left. rewrite (mul_assign_keeps x y r E). split; [reflexivity|split; auto].
  - destruct (div_left_sound x (rd x y) Wx Wy) as [(r & E & W & _ & V)|[(Z0 & _)|(l & E & W & D)]].
    + left. exists r. split; [exact E|split; auto].
    + destruct (Nz eq_refl Z0).
    + right. exists l. splits; auto.
Qed.
Lemma quotient_zero x y : wf x -> R_any (rd x y) 0 -> eop Quotient x y = (x, Throw DivideByZero).
Proof.
  intros Wx [Wy V]. cbn [eop]. unfold div_assign_nd. destruct (div_left_sound x (rd x y) Wx Wy) as [(r & E & W & N & _)|[(Z0 & E)|(l & E & W & D & j & J)]]; auto; [contradiction|].
  exfalso. destruct J as (J1 & _ & J2 & _). rewrite V in *. cbn [Z.abs] in J2. change (10 ^ 9) with 1000000000 in J2.
  pose proof (Z.div_pos (Z.abs (val x)) (1000000000 ^ (j + 1)) (Z.abs_nonneg _)). assert (0 < 1000000000 ^ (j + 1)) by (apply Z.pow_pos_nonneg; lia). lia.
Qed.

(** *** Vectors *)
Definition mix (i : nat) (w v : nat -> Z) (j : nat) : Z := if Nat.ltb j i then w j else v j.
Notation vec := (seq_of R_any).
Lemma vec_ext x n v w : (forall i, (i < n)%nat -> v i = w i) -> vec x n v -> vec x n w.
Proof. intros H [L F]. split; auto. intros i Hi. destruct (F i Hi) as (e & E & Re). exists e. split; auto. rewrite <- H by auto. exact Re. Qed.
Lemma vec_at x n v i : vec x n v -> (i < n)%nat -> exists e, get_at x i = Ok e /\ R_any e (v i).
Proof. intros [L F] Hi. destruct (F i Hi) as (e & E & Re). exists e. unfold get_at. rewrite E. auto. Qed.
Lemma vec_replace x n v i e a : vec x n v -> R_any e a -> vec (replace x i e) n (fun j => if Nat.eqb j i then a else v j).
Proof.
  intros [L F] Re. split; [rewrite length_replace; exact L|]. intros j Hj. destruct (Nat.eqb_spec j i) as [->|N].
  - exists e. split; auto. apply nth_replace_eq. lia.
  - rewrite nth_replace_ne by auto. apply F, Hj.
Qed.
Section Loop.
Context (o : element_op) (n : nat) (v w y : nat -> Z).
(** a loop has done everything, or an element is left unfinished *)
Definition worked_out (p : outcome (list Int)) : Prop :=
  (exists d, p = (d, Ok tt) /\ vec d n w) \/
  (exists d k u, p = (d, Throw OutOfRange) /\ (k < n)%nat /\ partly o (v k) (y k) u /\ vec d n (up_to k w u v)).
Hypothesis Hw : forall i, (i < n)%nat -> w i = zop o (v i) (y i).
Hypothesis Hy : o = Quotient -> forall i, (i < n)%nat -> y i <> 0.
Lemma round i d yo : (i < n)%nat -> vec d n (mix i w v) -> (forall z, yo = Some z -> R_any z (y i)) -> (yo = None -> y i = v i) ->
  (exists d', assign_at' (eop o) d i yo = (d', Ok tt) /\ vec d' n (mix (S i) w v)) \/
  (exists d' u, assign_at' (eop o) d i yo = (d', Throw OutOfRange) /\ partly o (v i) (y i) u /\ vec d' n (up_to i w u v)).
Proof.
  intros Hi Hd Hs Hn. destruct (vec_at _ _ _ i Hd Hi) as (e & Ge & We & Ve). unfold mix in Ve. rewrite Nat.ltb_irrefl in Ve.
  unfold assign_at'. rewrite Ge. cbn [eval].
  assert (Ry : R_any (rd e yo) (y i)). { destruct yo as [z|]; cbn [rd]; [apply Hs; auto|]. rewrite Hn by auto. split; auto. }
  destruct (eop_sound o e yo (y i) We Ry (fun E => Hy E i Hi)) as [(r & E & Rr)|(l & E & Wl & Pl)]; rewrite E; cbn [fst snd].
  - left. eexists. split; [reflexivity|]. eapply vec_ext; [|apply (vec_replace d n _ i r _ Hd Rr)]. intros j Hj. cbn beta. unfold mix.
    destruct (Nat.eqb_spec j i) as [->|N].
    + replace (Nat.ltb i (S i)) with true by (symmetry; apply Nat.ltb_lt; lia). rewrite Hw, Ve by auto. reflexivity.
    + destruct (Nat.ltb_spec j i), (Nat.ltb_spec j (S i)); auto; lia.
  - right. eexists _, (val l). split; [reflexivity|]. rewrite Ve in Pl. split; auto. eapply vec_ext; [|apply (vec_replace d n _ i l (val l) Hd); split; auto].
    intros j Hj. cbn beta. unfold mix, up_to. destruct (Nat.eqb_spec j i) as [->|N]; [rewrite Nat.ltb_irrefl; reflexivity|]. reflexivity.
Qed.
Lemma loop body : (forall i d, (i < n)%nat -> vec d n (mix i w v) -> exists yo, body i d = assign_at' (eop o) d i yo /\
    (forall z, yo = Some z -> R_any z (y i)) /\ (yo = None -> y i = v i)) ->
  forall x, vec x n v -> worked_out (for_ n 0 body x).
Proof.
  intros Hb x Hx. assert (G : forall m i d, (i + m = n)%nat -> vec d n (mix i w v) -> worked_out (for_ m i body d)).
  { induction m as [|m IH]; intros i d Hi Hd; cbn [for_].
    - left. exists d. split; [reflexivity|]. eapply vec_ext; [|exact Hd]. intros j Hj. unfold mix. replace (Nat.ltb j i) with true; auto. symmetry. apply Nat.ltb_lt. lia.
    - destruct (Hb i d ltac:(lia) Hd) as (yo & -> & H1 & H2). destruct (round i d yo ltac:(lia) Hd H1 H2) as [(d' & -> & Hd')|(d' & u & -> & Pu & Hd')]; cbn [andthen].
      + apply IH; auto. lia.
      + right. exists d', i, u. splits; auto. lia. }
  apply G; auto.
Qed.
End Loop.
Lemma scale_val o x n v a b : vec x n v -> R_any a b -> (o = Quotient -> (0 < n)%nat -> b <> 0) ->
  worked_out o n v (fun i => zop o (v i) b) (fun _ => b) (scale_assign' (eop o) x (Val a)).
Proof.
  intros Hx Ra Nz. unfold scale_assign'. destruct Hx as [L Hx]. rewrite L. apply loop; [reflexivity|intros E i Hi; apply Nz; auto; lia| |split; auto].
  intros i d Hi Hd. exists (Some a). splits; auto; [intros z [= <-]; auto|discriminate].
Qed.
Lemma scale_zero x n v a : vec x n v -> (0 < n)%nat -> R_any a 0 -> scale_assign' (eop Quotient) x (Val a) = (x, Throw DivideByZero).
Proof.
  intros Hx Hn Ra. destruct (vec_at _ _ _ 0%nat Hx Hn) as (e & Ge & We & Ve). destruct Hx as [L _]. unfold scale_assign'. destruct n as [|n]; [lia|]. rewrite L. cbn [for_].
  unfold assign_at' at 1. rewrite Ge. cbn [eval]. rewrite quotient_zero by auto. cbn [fst snd andthen]. destruct x as [|a0 x]; [discriminate|]. cbn in Ge. injection Ge as <-. reflexivity.
Qed.
Lemma own_zero x n v k : vec x n v -> (k < n)%nat -> v k = 0 -> scale_assign' (eop Quotient) x (Elem k) = (x, Throw DivideByZero).
Proof.
  intros Hx Hk Z0. destruct (vec_at _ _ _ 0%nat Hx ltac:(lia)) as (e & Ge & We & Ve). destruct (vec_at _ _ _ k Hx Hk) as (f & Gf & Rf). rewrite Z0 in Rf.
  destruct Hx as [L _]. unfold scale_assign'. destruct n as [|n]; [lia|]. rewrite L. cbn [for_].
  destruct x as [|a0 x]; [discriminate|]. cbn in Ge. injection Ge as <-.
  destruct (Nat.eqb_spec 0 k) as [<-|N].
  - unfold assign_at' at 1. cbn [get_at nth_error eval]. cbn in Gf. injection Gf as <-. rewrite quotient_zero by auto. reflexivity.
  - rewrite Gf. cbn [eval]. unfold assign_at' at 1. cbn [get_at nth_error eval]. rewrite quotient_zero by auto. reflexivity.
Qed.
Lemma scale_own o x n v k : vec x n v -> (k < n)%nat -> (o = Quotient -> v k <> 0) ->
  let y i := if Nat.leb i k then v k else zop o (v k) (v k) in
  worked_out o n v (fun i => zop o (v i) (y i)) y (scale_assign' (eop o) x (Elem k)).
Proof.
  intros Hx Hk Nz y. unfold scale_assign'. destruct Hx as [L Hx]. rewrite L. apply loop; [reflexivity| | |split; auto].
  - intros E i Hi. unfold y. destruct (Nat.leb i k); [auto|]. subst o. cbn [zop]. rewrite Z.quot_same by auto. discriminate.
  - intros i d Hi Hd. destruct (Nat.eqb_spec i k) as [->|N].
    + exists None. splits; auto; [discriminate|]. intros _. unfold y. rewrite Nat.leb_refl. reflexivity.
    + destruct (vec_at _ _ _ k Hd Hk) as (e & Ge & Re). exists (Some e). rewrite Ge. splits; auto; [|discriminate]. intros z [= <-].
      unfold mix in Re. unfold y in *. rewrite Nat.leb_refl in Re. destruct (Nat.ltb_spec k i), (Nat.leb_spec i k); auto; lia.
Qed.
Lemma assign_own o x n v b yv : vec x n v -> match b with None => forall i, (i < n)%nat -> yv i = v i | Some y => vec y n yv end -> o <> Quotient ->
  worked_out o n v (fun i => zop o (v i) (yv i)) yv (vec_assign' (eop o) x b).
Proof.
  intros Hx Hb Nq. unfold vec_assign'. replace (Nat.eqb (length x) (length (rd x b))) with true.
  2: { symmetry. apply Nat.eqb_eq. destruct b; cbn [rd]; auto. destruct Hx as [-> _], Hb as [-> _]. reflexivity. }
  cbn [negb]. destruct Hx as [L Hx]. rewrite L. apply loop; [reflexivity|intros; contradiction| |split; auto].
  intros i d Hi Hd. destruct b as [z|]; cbn [rd].
  - destruct (vec_at _ _ _ i Hb Hi) as (e & Ge & Re). exists (Some e). rewrite Ge. splits; auto; [intros ? [= <-]; auto|discriminate].
  - destruct (vec_at _ _ _ i Hd Hi) as (e & Ge & Re). exists (Some e). rewrite Ge. splits; auto. intros ? [= <-].
    unfold mix in Re. rewrite Nat.ltb_irrefl in Re. rewrite Hb by auto. exact Re.
Qed.

(** *** Matrices, as vectors of their entries row by row *)
Definition row_major (c : nat) (g : nat -> nat -> Z) (k : nat) : Z := g (k / c)%nat (k mod c)%nat.
Lemma place c i j : (j < c)%nat -> ((i * c + j) / c = i /\ (i * c + j) mod c = j)%nat.
Proof. intros H. rewrite Nat.add_comm. split; [rewrite Nat.div_add, Nat.div_small by lia; lia|rewrite Nat.mod_add, Nat.mod_small by lia; lia]. Qed.
Lemma row_major_at c g i j : (j < c)%nat -> row_major c g (i * c + j) = g i j.
Proof. intros H. unfold row_major. destruct (place c i j H) as [-> ->]. reflexivity. Qed.
Lemma placed r c k : (k < r * c)%nat -> (k / c < r /\ k mod c < c /\ k = k / c * c + k mod c)%nat.
Proof.
  intros H. assert (c <> 0%nat) by (intros ->; lia). splits; [apply Nat.div_lt_upper_bound; lia|apply Nat.mod_upper_bound; auto|].
  rewrite (Nat.div_mod k c) at 1 by auto. lia.
Qed.
Lemma mat_flat m r c g : mat_of R_any m r c g -> exists l, m = mat r c l /\ vec l (r * c) (row_major c g).
Proof.
  destruct m as [r' c' dt]. intros (H1 & H2 & H3 & H4). cbn in *. subst r' c'.
  assert (F : forall k, (k < length dt)%nat -> exists x, nth_error dt k = Some (Some x) /\ R_any x (row_major c g k)).
  { intros k Hk. rewrite H3 in Hk. destruct (placed r c k Hk) as (A1 & A2 & A3). destruct (H4 _ _ A1 A2) as (x & E & Rx). exists x. rewrite A3 at 1. auto. }
  assert (G : exists l, dt = map Some l /\ vec l (length dt) (row_major c g)).
  { clear H3 H4. revert F. generalize (row_major c g). induction dt as [|o dt IH]; intros v F.
    - exists []. split; auto. split; auto. cbn. intros; lia.
    - destruct (F 0%nat ltac:(cbn; lia)) as (x & [= ->] & Rx). destruct (IH (fun k => v (S k))) as (l & -> & L & Fl).
      { intros k Hk. apply (F (S k)). cbn. lia. }
      exists (x :: l). split; auto. split; [cbn; rewrite map_length; auto|]. intros [|k] Hk; [exists x; auto|]. apply Fl. cbn in Hk. lia. }
  destruct G as (l & -> & Hl). exists l. unfold mat. rewrite <- H3. auto.
Qed.
Lemma flat_mat l r c v g : vec l (r * c) v -> (forall i j, (i < r)%nat -> (j < c)%nat -> v (i * c + j)%nat = g i j) -> mat_of R_any (mat r c l) r c g.
Proof.
  intros [L F] H. unfold mat_of, mat. cbn [rows cols data]. rewrite map_length. splits; auto. intros i j Hi Hj.
  destruct (F (i * c + j)%nat) as (e & E & Re); [nia|]. exists e. rewrite nth_error_map, E, <- H by auto. auto.
Qed.
(** a matrix is worked out entry by entry *)
Definition mat_worked (o : element_op) (r c : nat) (g h y : nat -> nat -> Z) (p : outcome (Mat Int)) : Prop :=
  (exists d, p = (d, Ok tt) /\ mat_of R_any d r c h) \/
  (exists d i j u, p = (d, Throw OutOfRange) /\ (i < r)%nat /\ (j < c)%nat /\ partly o (g i j) (y i j) u /\ mat_of R_any d r c (up_to_entry c (i * c + j) h u g)).
Lemma worked_mat o r c g h y (w' y' : nat -> Z) p : (forall i j, (i < r)%nat -> (j < c)%nat -> w' (i * c + j)%nat = h i j /\ y' (i * c + j)%nat = y i j) ->
  worked_out o (r * c) (row_major c g) w' y' p -> mat_worked o r c g h y (as_mat r c p).
Proof.
  intros H [(d & -> & Hd)|(d & k & u & -> & Hk & Pu & Hd)].
  - left. eexists. split; [reflexivity|]. eapply flat_mat; [exact Hd|]. apply H.
  - right. destruct (placed r c k Hk) as (A1 & A2 & A3). exists (mat r c d), (k / c)%nat, (k mod c)%nat, u. splits; auto.
    + rewrite A3 in Pu. rewrite row_major_at in Pu by auto. destruct (H _ _ A1 A2) as [_ E]. rewrite E in Pu. exact Pu.
    + rewrite <- A3. eapply flat_mat; [exact Hd|]. intros i j Hi Hj. unfold up_to, up_to_entry. rewrite row_major_at by auto. destruct (H i j Hi Hj) as [-> _]. reflexivity.
Qed.
Lemma mat_scale_val o m r c g a b : mat_of R_any m r c g -> R_any a b -> (o = Quotient -> (0 < r)%nat -> (0 < c)%nat -> b <> 0) ->
  mat_worked o r c g (fun i j => zop o (g i j) b) (fun _ _ => b) (mat_scale_assign' (eop o) m (MVal a)).
Proof.
  intros Hm Ra Nz. destruct (mat_flat _ _ _ _ Hm) as (l & -> & Hl). rewrite mat_scale_flat' by (cbn; auto; apply Hl). cbn [flat_scalar].
  eapply worked_mat; [|apply (scale_val o l _ _ a b Hl Ra); intros E H; apply Nz; auto; nia]. intros i j Hi Hj. cbn beta. rewrite row_major_at by auto. auto.
Qed.
Lemma mat_scale_zero m r c g a : mat_of R_any m r c g -> (0 < r)%nat -> (0 < c)%nat -> R_any a 0 -> mat_scale_assign' (eop Quotient) m (MVal a) = (m, Throw DivideByZero).
Proof.
  intros Hm Hr Hc Ra. destruct (mat_flat _ _ _ _ Hm) as (l & -> & Hl). rewrite mat_scale_flat' by (cbn; auto; apply Hl). cbn [flat_scalar].
  rewrite (scale_zero l _ _ a Hl) by (auto; nia). reflexivity.
Qed.
Lemma mat_own_zero m r c g p q : mat_of R_any m r c g -> (p < r)%nat -> (q < c)%nat -> g p q = 0 -> mat_scale_assign' (eop Quotient) m (MElem p q) = (m, Throw DivideByZero).
Proof.
  intros Hm Hp Hq Z0. destruct (mat_flat _ _ _ _ Hm) as (l & -> & Hl). rewrite mat_scale_flat' by (cbn; auto; apply Hl). cbn [flat_scalar].
  rewrite (own_zero l _ _ _ Hl) by (rewrite ?row_major_at; auto; nia). reflexivity.
Qed.
Lemma mat_scale_own o m r c g p q : mat_of R_any m r c g -> (p < r)%nat -> (q < c)%nat -> (o = Quotient -> g p q <> 0) ->
  let y i j := if Nat.leb (i * c + j) (p * c + q) then g p q else zop o (g p q) (g p q) in
  mat_worked o r c g (fun i j => zop o (g i j) (y i j)) y (mat_scale_assign' (eop o) m (MElem p q)).
Proof.
  intros Hm Hp Hq Nz y. destruct (mat_flat _ _ _ _ Hm) as (l & -> & Hl). rewrite mat_scale_flat' by (cbn; auto; apply Hl). cbn [flat_scalar].
  eapply worked_mat; [|apply (scale_own o l _ _ (p * c + q) Hl); [nia|rewrite row_major_at by auto; exact Nz]].
  intros i j Hi Hj. cbn beta. rewrite !row_major_at by auto. auto.
Qed.
Lemma mat_assign_own o m r c g b yv : mat_of R_any m r c g -> match b with None => forall i j, (i < r)%nat -> (j < c)%nat -> yv i j = g i j | Some y => mat_of R_any y r c yv end ->
  o <> Quotient -> mat_worked o r c g (fun i j => zop o (g i j) (yv i j)) yv (mat_assign' (eop o) m b).
Proof.
  intros Hm Hb Nq. destruct (mat_flat _ _ _ _ Hm) as (l & -> & Hl).
  assert (exists lb, b = option_map (mat r c) lb /\ (forall l', lb = Some l' -> length l' = (r * c)%nat) /\
    match lb with None => forall k, (k < r * c)%nat -> row_major c yv k = row_major c g k | Some y => vec y (r * c) (row_major c yv) end) as (lb & -> & Hlen & Hlb).
  { destruct b as [z|].
    - destruct (mat_flat _ _ _ _ Hb) as (lz & -> & Hz). exists (Some lz). splits; auto. intros l' [= <-]. apply Hz.
    - exists None. splits; auto; [discriminate|]. intros k Hk. destruct (placed r c k Hk) as (A1 & A2 & _). apply Hb; auto. }
  rewrite mat_assign_flat' by (auto; apply Hl). eapply worked_mat; [|apply (assign_own o l _ _ lb _ Hl Hlb Nq)].
  intros i j Hi Hj. cbn beta. rewrite !row_major_at by auto. auto.
Qed.

(** *** Two more kinds of elements: an assertion again where std::out_of_range is thrown *)
Definition guard {A} (m : res A) : res A := match m with Throw OutOfRange => Abort | m => m end.
Definition Int_ops_strict : ops Int := {|
  of_int := int_const; fresh := Some Int_default;
  add := fun x y => guard (op_add_nd x y); sub := fun x y => guard (op_sub_nd x y); mul := op_mul_nd; div := fun x y => guard (op_div_nd x y); neg := op_neg; eqb := op_eq;
  addA := fun x y => guard (add_assign_nd x y); subA := fun x y => guard (sub_assign_nd x y); mulA := mul_assign_nd; divA := fun x y => guard (finish (div_assign_nd x y)) |}.
Lemma addA_nd (s : bool) x y : wf x -> wf (rd x y) -> sound_nd (if s then Sub else Add) x (rd x y) (addsub_assign_nd 3 s x y).
Proof.
  intros Wx Wy. rewrite <- addsub_left_nd. assert (Wo : forall z, y = Some z -> wf z) by (intros z ->; exact Wy).
  destruct (addsub_left_sound s x y Wx Wo) as [(r & -> & W & V)|(l & -> & W & _)]; cbn [finish].
  - left. exists r. splits; auto. destruct s; exact V.
  - right. right. split; auto. destruct s; discriminate.
Qed.
Lemma mulA_nd x y : wf x -> wf (rd x y) -> exists r, mul_assign_nd x y = Ok r /\ R_any r (val x * val (rd x y)).
Proof.
  intros Wx Wy. destruct (mul_assign_ok x y Wx) as (r & E & W & V & _); [intros z ->; exact Wy|]. exists r. split; [apply mul_assign_keeps, E|split; auto].
Qed.
Lemma opt_wf x y : wf x -> opt_all wf y -> wf (rd x y).
Proof. destruct y; auto. Qed.
Lemma guard_alike o x y m : sound_nd o x y m -> alike (same wf) (guard m) m.
Proof. intros [(r & -> & W & _)|[(_ & _ & ->)|(_ & ->)]]; cbn; auto. split; auto. Qed.
Lemma ok_alike (m : res Int) r a : m = Ok r -> R_any r a -> alike (same wf) m m.
Proof. intros -> [W _]. split; auto. Qed.
Lemma strict_ring : ring_alike (same wf) Int_ops_strict Int_ops_nd.
Proof.
  split; cbn [of_int fresh add sub mul neg eqb addA subA Int_ops_strict Int_ops_nd].
  - intros k Hk. split; auto. destruct (Int_const_exact k) as [C _]; [cbn in Hk; lia|]. apply C.
  - split; auto. destruct (Int_const_exact 0) as [C _]; [lia|]. apply C.
  - intros x y x' y' [-> Wx] [-> Wy]. eapply guard_alike, add_sound_nd; auto.
  - intros x y x' y' [-> Wx] [-> Wy]. eapply guard_alike, sub_sound_nd; auto.
  - intros x y x' y' [-> Wx] [-> Wy]. destruct (mul_nd_ok x y Wx Wy) as (r & -> & W & _). split; auto.
  - intros x x' [-> Wx]. destruct (op_neg_ok x Wx) as (r & -> & _ & _ & W & _). split; auto.
  - intros x y x' y' [-> Wx] [-> Wy]. rewrite op_eq_spec by auto. reflexivity.
  - intros x y x' y' [-> Wx] Hy. apply opt_same in Hy as [-> Hy]. eapply guard_alike. apply (addA_nd false); auto using opt_wf.
  - intros x y x' y' [-> Wx] Hy. apply opt_same in Hy as [-> Hy]. eapply guard_alike. apply (addA_nd true); auto using opt_wf.
Qed.
Lemma strict_div : div_alike (same wf) Int_ops_strict Int_ops_nd.
Proof.
  split; cbn [div divA Int_ops_strict Int_ops_nd].
  - intros x y x' y' [-> Wx] [-> Wy]. eapply guard_alike, div_sound_nd; auto.
  - intros x y x' y' [-> Wx] Hy. apply opt_same in Hy as [-> Hy]. eapply guard_alike. apply (div_sound_nd x (rd x y)); auto using opt_wf.
Qed.
Lemma strict_mulA x y : wf x -> opt_all wf y -> alike (same wf) (mulA Int_ops_strict x y) (mulA Int_ops_nd x y).
Proof. intros Wx Wy. destruct (mulA_nd x y Wx (opt_wf _ _ Wx Wy)) as (r & E & Rr). cbn [mulA Int_ops_strict Int_ops_nd]. eapply ok_alike; eauto. Qed.
Lemma strict_prod : prod_alike (same wf) (same wf) Int_ops_strict Int_ops_nd.
Proof.
  split; auto.
  - intros x y x' y' [-> Wx] [-> Wy]. apply strict_mulA; auto.
  - apply (al_div _ _ _ strict_div).
Qed.
Lemma guard_ret o x y m f : sound_nd o x y m -> o <> Div -> o <> Mod -> (forall v, zresult o (val x) (val y) v -> v = f (val x) (val y)) ->
  ret may_abort (guard m) (fun z => R_any z (f (val x) (val y))).
Proof.
  intros [(r & -> & W & Z)|[([?|?] & _)|(_ & ->)]] N1 N2 Hf; try contradiction; cbn [guard].
  - left. exists r. split; auto. split; auto.
  - apply ret_abort. auto.
Qed.
Lemma guard_quot x y m : sound_nd Div x y m ->
  if val y =? 0 then raises may_abort DivideByZero (guard m) else ret may_abort (guard m) (fun z => R_any z (Z.quot (val x) (val y))).
Proof.
  intros [(r & -> & W & N & V)|[(_ & Z & ->)|(_ & ->)]]; cbn [guard].
  - destruct (Z.eqb_spec (val y) 0); [contradiction|]. left. exists r. split; auto. split; auto.
  - rewrite Z. left. reflexivity.
  - destruct (val y =? 0); right; exists HAbort; split; reflexivity.
Qed.
Lemma strict_add : binary_exact may_abort R_any (add Int_ops_strict) Z.add.
Proof. intros x y a b [Wx <-] [Wy <-]. eapply guard_ret; [apply add_sound_nd; auto|discriminate|discriminate|auto]. Qed.
Lemma strict_sub : binary_exact may_abort R_any (sub Int_ops_strict) Z.sub.
Proof. intros x y a b [Wx <-] [Wy <-]. eapply guard_ret; [apply sub_sound_nd; auto|discriminate|discriminate|auto]. Qed.
Lemma nd_mul ab : binary_exact ab R_any op_mul_nd Z.mul.
Proof. intros x y a b [Wx <-] [Wy <-]. destruct (mul_nd_ok x y Wx Wy) as (r & -> & W & V). apply ret_ok. split; auto. Qed.
Lemma strict_addA : assign_exact may_abort R_any R_any R_any (addA Int_ops_strict) Z.add.
Proof.
  split; [intros x y a b [Wx <-] [Wy <-]; eapply guard_ret; [apply (addA_nd false x (Some y)); auto|discriminate|discriminate|auto]|].
  intros x a [Wx <-] _. eapply guard_ret; [apply (addA_nd false x None); auto|discriminate|discriminate|auto].
Qed.
Lemma strict_subA : assign_exact may_abort R_any R_any R_any (subA Int_ops_strict) Z.sub.
Proof.
  split; [intros x y a b [Wx <-] [Wy <-]; eapply guard_ret; [apply (addA_nd true x (Some y)); auto|discriminate|discriminate|auto]|].
  intros x a [Wx <-] _. eapply guard_ret; [apply (addA_nd true x None); auto|discriminate|discriminate|auto].
Qed.
Lemma nd_mulA ab : assign_exact ab R_any R_any R_any mul_assign_nd Z.mul.
Proof.
  split; [intros x y a b [Wx <-] [Wy <-]; destruct (mulA_nd x (Some y)) as (r & -> & Rr); auto; apply ret_ok, Rr|].
  intros x a [Wx <-] _. destruct (mulA_nd x None) as (r & -> & Rr); auto. apply ret_ok, Rr.
Qed.
Lemma any_eq_ret ab x y a b : R_any x a -> R_any y b -> ret ab (op_eq x y) (fun e => e = (a =? b)).
Proof. intros [Wx <-] [Wy <-]. left. exists (val x =? val y). split; auto. apply op_eq_spec; auto. Qed.
Lemma any_eq_iff ab x y a b : R_any x a -> R_any y b -> ret ab (op_eq x y) (fun e => e = true <-> a = b).
Proof. intros [Wx <-] [Wy <-]. left. exists (val x =? val y). split; [apply op_eq_spec; auto|]. apply Z.eqb_eq. Qed.

(** ... and sums and quotients that are always found *)
Fixpoint digits_of (f : nat) (n : Z) : list Z := match f with O => [] | S f => n mod B :: digits_of f (n / B) end.
Definition Int_of_Z (z : Z) : Int := mkInt (digits_of (S (Z.to_nat (Z.abs z))) (Z.abs z)) (z <? 0).
Lemma digits_of_ok f : forall n, 0 <= n <= Z.of_nat f -> Forall digit_ok (digits_of f n) /\ bins_val (digits_of f n) = n.
Proof.
  induction f as [|f IH]; intros n Hn; cbn [digits_of]; [split; [constructor|cbn; lia]|].
  assert (Hq : 0 <= n / B <= Z.of_nat f).
  { split; [apply Z.div_pos; lia|]. destruct (Z.eq_dec n 0) as [->|N]; [rewrite Z.div_0_l by lia; lia|]. assert (n / B < n) by (apply Z.div_lt; lia). lia. }
  destruct (IH _ Hq) as [D V]. split.
  - constructor; auto. unfold digit_ok. apply Z.mod_pos_bound. lia.
  - cbn [bins_val]. rewrite V. pose proof (Z.div_mod n B ltac:(lia)). lia.
Qed.
Lemma Int_of_Z_ok z : R_any (Int_of_Z z) z.
Proof.
  destruct (digits_of_ok (S (Z.to_nat (Z.abs z))) (Z.abs z) ltac:(lia)) as [D V]. split.
  - split; [cbn; discriminate|exact D].
  - unfold val, Int_of_Z. cbn [bins negative]. rewrite V. destruct (Z.ltb_spec z 0); lia.
Qed.
Definition quot_of (x y : Int) : res Int := if val y =? 0 then Throw DivideByZero else Ok (Int_of_Z (Z.quot (val x) (val y))).
Definition Int_ops_ideal : ops Int := {|
  of_int := int_const; fresh := Some Int_default;
  add := fun x y => Ok (Int_of_Z (val x + val y)); sub := fun x y => Ok (Int_of_Z (val x - val y)); mul := op_mul_nd; div := quot_of; neg := op_neg; eqb := op_eq;
  addA := fun x y => Ok (Int_of_Z (val x + val (rd x y))); subA := fun x y => Ok (Int_of_Z (val x - val (rd x y)));
  mulA := mul_assign_nd; divA := fun x y => quot_of x (rd x y) |}.
Lemma ideal_add : binary_exact never R_any (add Int_ops_ideal) Z.add.
Proof. intros x y a b [Wx <-] [Wy <-]. apply ret_ok, Int_of_Z_ok. Qed.
Lemma ideal_sub : binary_exact never R_any (sub Int_ops_ideal) Z.sub.
Proof. intros x y a b [Wx <-] [Wy <-]. apply ret_ok, Int_of_Z_ok. Qed.
Lemma ideal_addA : assign_exact never R_any R_any R_any (addA Int_ops_ideal) Z.add.
Proof. split; [intros x y a b [Wx <-] [Wy <-]|intros x a [Wx <-] _]; apply ret_ok, Int_of_Z_ok. Qed.
Lemma ideal_subA : assign_exact never R_any R_any R_any (subA Int_ops_ideal) Z.sub.
Proof. split; [intros x y a b [Wx <-] [Wy <-]|intros x a [Wx <-] _]; apply ret_ok, Int_of_Z_ok. Qed.
Lemma ideal_quot x y : if val y =? 0 then raises never DivideByZero (quot_of x y) else ret never (quot_of x y) (fun z => R_any z (Z.quot (val x) (val y))).
Proof. unfold quot_of. destruct (val y =? 0); [left; reflexivity|apply ret_ok, Int_of_Z_ok]. Qed.

Section Calls.
Context (det : nat -> (nat -> nat -> Z) -> Z).
Notation G := (Z_algebra det).
Lemma Int_strict : (forall m n g, mat_of R_any m n n g -> (0 < n)%nat -> ret may_abort (row_cofactor_expansion Int_ops_strict m) (fun x => R_any x (det n g))) ->
  (forall m n g, mat_of R_any m n n g -> (0 < n)%nat -> ret may_abort (col_cofactor_expansion Int_ops_strict m) (fun x => R_any x (det n g))) ->
  exact_elements Int_ops_strict G may_abort R_any int_features.
Proof.
  intros Hrow Hcol. split; try (intros []; fail).
  - apply R_int_any. apply (Int_const_exact 0). lia.
  - apply R_int_any. apply (Int_const_exact 1). lia.
  - intros k Hk. apply R_int_any, const64, Hk.
  - intros _ x a [W <-]. destruct (op_neg_ok x W) as (r & E & V & _ & W' & _). left. exists r. split; auto. split; auto.
  - exact strict_add.
  - exact strict_sub.
  - exact (nd_mul _).
  - exact strict_addA.
  - exact strict_subA.
  - exact (any_eq_ret _).
  - intros _. exact (nd_mulA _).
  - intros _ x y a b [Wx <-] [Wy <-]. apply (guard_quot x y), div_sound_nd; auto.
  - intros _ x y a b [Wx <-] [Wy <-]. apply (guard_quot x y). apply (div_sound_nd x y); auto.
  - intros _ x a [Wx <-]. apply (guard_quot x x). apply (div_sound_nd x x); auto.
  - intros _ a. apply ratio_Z.
  - intros _. exact Hrow.
  - intros _. exact Hcol.
Qed.
Lemma Int_ideal : (forall m n g, mat_of R_any m n n g -> (0 < n)%nat -> ret never (row_cofactor_expansion Int_ops_ideal m) (fun x => R_any x (det n g))) ->
  (forall m n g, mat_of R_any m n n g -> (0 < n)%nat -> ret never (col_cofactor_expansion Int_ops_ideal m) (fun x => R_any x (det n g))) ->
  exact_elements Int_ops_ideal G never R_any int_features.
Proof.
  intros Hrow Hcol. split; try (intros []; fail).
  - apply R_int_any. apply (Int_const_exact 0). lia.
  - apply R_int_any. apply (Int_const_exact 1). lia.
  - intros k Hk. apply R_int_any, const64, Hk.
  - intros _ x a [W <-]. destruct (op_neg_ok x W) as (r & E & V & _ & W' & _). left. exists r. split; auto. split; auto.
  - exact ideal_add.
  - exact ideal_sub.
  - exact (nd_mul _).
  - exact ideal_addA.
  - exact ideal_subA.
  - exact (any_eq_ret _).
  - intros _. exact (nd_mulA _).
  - intros _ x y a b [Wx <-] [Wy <-]. apply (ideal_quot x y).
  - intros _ x y a b [Wx <-] [Wy <-]. apply (ideal_quot x y).
  - intros _ x a [Wx <-]. apply (ideal_quot x x).
  - intros _ a. apply ratio_Z.
  - intros _. exact Hrow.
  - intros _. exact Hcol.
Qed.
Hypothesis XS : exact_elements Int_ops_strict G may_abort R_any int_features.
Hypothesis XI : exact_elements Int_ops_ideal G never R_any int_features.

Notation hv := (holds_value R_any).
Lemma hv_wf ms st : hv ms st -> (forall n, wf (sc st n)) /\ (forall n, Forall wf (ve st n)) /\ (forall n, entries wf (ma st n)).
Proof.
  intros (Hs & Hv & Hm & _). splits; intros n.
  - apply (Hs n).
  - destruct (Hv n) as [L F]. apply Forall_forall. intros x Hx. apply In_nth_error in Hx as [i Hi].
    destruct (F i) as (e & E & W & _); [rewrite <- L; apply nth_error_Some; congruence|]. rewrite Hi in E. injection E as ->. exact W.
  - destruct (mat_flat _ _ _ _ (Hm n)) as (l & -> & L & F). unfold entries. cbn [mat data]. apply Forall_forall. intros o Ho. apply in_map_iff in Ho as (x & <- & Hx).
    exists x. split; auto. apply In_nth_error in Hx as [i Hi]. destruct (F i) as (e & E & W & _); [rewrite <- L; apply nth_error_Some; congruence|].
    rewrite Hi in E. injection E as ->. exact W.
Qed.
(** the same call, with std::out_of_range instead of an assertion *)
Definition turn {A} (p : outcome A) : outcome A := match p with (s, Abort) => (s, Throw OutOfRange) | p => p end.
Lemma turn_eval {A} (st : objects Int) (m m' : res A) (f : A -> objects Int) : m' = match m with Ok a => Ok a | Throw e => Throw e | Abort => Throw OutOfRange | UB => UB | OutOfFuel => OutOfFuel end ->
  eval st m' (fun x => done (f x)) = turn (eval st m (fun x => done (f x))).
Proof. intros ->. destruct m; reflexivity. Qed.
Lemma turn_released {A} (st : objects Int) (m m' : res A) (f : A -> objects Int) : m' = released m ->
  eval st m' (fun x => done (f x)) = turn (eval st m (fun x => done (f x))).
Proof. intros ->. destruct m; reflexivity. Qed.
Ltac pick H := let Q := fresh in pose proof H as Q; unfold released_run in *; decompose [and] Q; assumption.
Lemma turned ms st c : hv ms st -> adds_or_divides c -> perform Int_ops_nd st c = turn (perform Int_ops_strict st c).
Proof.
  intros H A. destruct (hv_wf _ _ H) as (Ws & Wv & Wm).
  pose proof (fun x y z a => vec_runs wf wf _ _ strict_ring strict_div strict_prod strict_mulA (ve st x) (ve st y) (ve st z) None (sc st a) (Elem 0) (Wv x) (Wv y) (Wv z) I (Ws a) I) as VR.
  pose proof (fun x y o a => mat_runs wf wf _ _ strict_ring strict_div strict_prod strict_mulA (ma st x) (ma st y) o (sc st a) (MElem 0 0) (Wm x) (Wm y)) as MR.
  pose proof (fun x => elim_runs wf wf _ _ strict_ring strict_div strict_prod (ma st x) 0%nat 0%nat (Wm x)) as ER.
  destruct c; try destruct A; cbn [perform].
  - pose proof (alike_released _ _ _ (al_add _ _ _ strict_ring _ _ _ _ (conj eq_refl (Ws a)) (conj eq_refl (Ws b)))).
    pose proof (alike_released _ _ _ (al_sub _ _ _ strict_ring _ _ _ _ (conj eq_refl (Ws a)) (conj eq_refl (Ws b)))).
    destruct o; apply turn_released; assumption.
  - apply turn_released. exact (alike_released _ _ _ (al_div _ _ _ strict_div _ _ _ _ (conj eq_refl (Ws a)) (conj eq_refl (Ws b)))).
  - destruct o; apply turn_eval; pick (VR a b a 0%nat).
  - apply turn_eval; pick (VR a a a s).
  - apply turn_eval; pick (VR a b b 0%nat).
  - apply turn_eval; pick (VR a b b 0%nat).
  - apply turn_eval; pick (VR a b c 0%nat).
  - apply turn_eval; pick (VR a b c 0%nat).
  - destruct o; apply turn_eval; pick (MR a b None 0%nat I (Ws 0%nat) I).
  - apply turn_eval; pick (MR a a None s I (Ws s) I).
  - apply turn_eval; pick (MR a b None 0%nat I (Ws 0%nat) I).
  - unfold in_ma, operand, M_product_assign. set (b' := if Nat.eqb d b then None else Some (ma st b)).
    assert (E : rd (ma st d) b' = ma st b) by (unfold b'; destruct (Nat.eqb_spec d b) as [->|]; reflexivity). rewrite E.
    assert (D : released_run Int_ops_strict Int_ops_nd (fun E => M_product E (ma st d) (ma st b))) by pick (MR d b None 0%nat I (Ws 0%nat) I).
    unfold released_run in D. rewrite D. destruct (M_product Int_ops_strict (ma st d) (ma st b)); reflexivity.
  - apply turn_eval; pick (MR a a None 0%nat I (Ws 0%nat) I).
  - apply turn_eval; pick (ER a).
  - apply turn_eval; pick (ER a).
Qed.
Lemma put_back ms st d : hv ms st -> hv ms (set_ma st d (ma st d)).
Proof.
  intros (Hs & Hv & Hm & Hb). unfold holds_value; cbn. splits; auto. intros n. unfold put_at. destruct (Nat.eqb_spec n d) as [->|]; auto.
Qed.
Lemma stuck_same (E : ops Int) ms st c : hv ms st -> adds_or_divides c -> snd (perform E st c) <> Ok tt -> hv ms (fst (perform E st c)).
Proof.
  intros H A. assert (K : forall B (m : res B) (f : B -> objects Int), snd (eval st m (fun x => done (f x))) <> Ok tt -> hv ms (fst (eval st m (fun x => done (f x))))).
  { intros B m f. destruct m; cbn; auto. congruence. }
  destruct c; try destruct A; cbn [perform]; try (destruct o; apply K); try apply K.
  unfold in_ma, M_product_assign. destruct (M_product E (ma st d) _); cbn [fst snd]; try (intros; apply put_back, H). cbn. congruence.
Qed.
Lemma meant ms c : Forall int_features (uses c) -> exists e, means G ms c e.
Proof.
  intros F. destruct c; cbn [uses] in F; cbn [means]; cbv zeta; try (eexists; reflexivity); apply Forall_inv in F; destruct F.
Qed.
Definition acts ms st c : Prop :=
  means G ms c Undefined \/ exists x ms', call_gives G ms c x ms' /\ hv ms' (fst (nd_perform st c)) /\
    snd (nd_perform st c) = match x with None => Ok tt | Some e => Throw e end.
Lemma undefined_or (e : effect Z) : e = Undefined \/ e <> Undefined.
Proof. destruct e; auto; right; discriminate. Qed.
Lemma acts_new ms st c : hv ms st -> Forall int_features (uses c) -> adds_or_divides c -> acts ms st c.
Proof.
  intros H F A. unfold acts. replace (nd_perform st c) with (turn (perform Int_ops_strict st c)).
  2: { rewrite <- (turned ms st c H A). destruct c; try destruct A; reflexivity. }
  assert (ST : snd (perform Int_ops_strict st c) = Abort -> means G ms c Undefined \/ exists x ms', call_gives G ms c x ms' /\ hv ms' (fst (turn (perform Int_ops_strict st c))) /\
    snd (turn (perform Int_ops_strict st c)) = match x with None => Ok tt | Some e => Throw e end).
  { intros E. destruct (meant ms c F) as (e & M). destruct (undefined_or e) as [->|N]; [auto|]. right. exists (Some OutOfRange), ms. splits.
    - apply (stuck G ms c e ms M N). unfold leaves_values. destruct c; try destruct A; cbn [vec_operand mat_operand]; split; auto; exact I.
    - pose proof (stuck_same Int_ops_strict ms st c H A) as K. rewrite E in K. destruct (perform Int_ops_strict st c) as [s r]. cbn in E, K. subst r. apply K. discriminate.
    - destruct (perform Int_ops_strict st c) as [s r]. cbn in E. subst r. reflexivity. }
  destruct (step _ _ _ _ _ XS ms st c H F) as [(h & -> & E)|(e & M & [->|D])]; auto.
  destruct D as [(E & Th & V)|[(x & E & Th & V)|(h & -> & E)]]; auto; (destruct (undefined_or e) as [->|N]; [auto|]); right; exists (thrown e), (after e ms);
    (split; [apply as_meant; auto|]); rewrite Th; destruct (perform Int_ops_strict st c) as [s r]; cbn [fst snd] in *; subst r; cbn [turn fst snd]; auto.
Qed.
Lemma acts_same ms st c : hv ms st -> Forall int_features (uses c) -> nd_perform st c = perform Int_ops_ideal st c -> acts ms st c.
Proof.
  intros H F Eq. unfold acts. rewrite Eq.
  destruct (step _ _ _ _ _ XI ms st c H F) as [(h & [] & E)|(e & M & [->|D])]; auto.
  destruct D as [(E & Th & V)|[(x & E & Th & V)|(h & [] & E)]]; (destruct (undefined_or e) as [->|N]; [auto|]); right; exists (thrown e), (after e ms);
    (split; [apply as_meant; auto|]); rewrite Th; auto.
Qed.
(** in place *)
Lemma acts_vec ms st c d n o y w p : hv ms st -> means G ms c (SetV d n w) -> vec_operand ms c = Some (d, o, y) ->
  nd_perform st c = in_ve st d p -> worked_out o n (snd (vector_of ms d)) w y p -> acts ms st c.
Proof.
  intros H M Op E [(x & -> & Hx)|(x & k & u & -> & Hk & Pu & Hx)]; right; rewrite E; unfold in_ve; cbn [fst snd].
  - exists None, (after (SetV d n w) ms). splits; auto; [apply (as_meant G ms c (SetV d n w)); auto; discriminate|apply holds_ve; auto].
  - exists (Some OutOfRange). eexists. splits; [|apply holds_ve; eauto|reflexivity].
    apply (stuck G ms c (SetV d n w)); auto; [discriminate|]. unfold leaves_values. rewrite Op. exists n, w, k, u. splits; auto.
Qed.
Lemma acts_mat ms st c d r k o y w p : hv ms st -> means G ms c (SetM d r k w) -> vec_operand ms c = None -> mat_operand ms c = Some (d, o, y) ->
  nd_perform st c = in_ma st d p -> mat_worked o r k (snd (matrix_of ms d)) w y p -> acts ms st c.
Proof.
  intros H M Nv Op E [(x & -> & Hx)|(x & i & j & u & -> & Hi & Hj & Pu & Hx)]; right; rewrite E; unfold in_ma; cbn [fst snd].
  - exists None, (after (SetM d r k w) ms). splits; auto; [apply (as_meant G ms c (SetM d r k w)); auto; discriminate|apply holds_ma; auto].
  - exists (Some OutOfRange). eexists. splits; [|apply holds_ma; eauto|reflexivity].
    apply (stuck G ms c (SetM d r k w)); auto; [discriminate|]. unfold leaves_values. rewrite Nv, Op. exists r, k, w, i, j, u. splits; auto.
Qed.
Lemma put_back_v ms st d : hv ms st -> hv ms (set_ve st d (ve st d)).
Proof.
  intros (Hs & Hv & Hm & Hb). unfold holds_value; cbn. splits; auto. intros n. unfold put_at. destruct (Nat.eqb_spec n d) as [->|]; auto.
Qed.
Lemma acts_raise ms st c x : hv ms (fst (nd_perform st c)) -> means G ms c (Raise x) -> snd (nd_perform st c) = Throw x -> acts ms st c.
Proof.
  intros H M E. right. exists (Some x), ms. splits; auto. apply (as_meant G ms c (Raise x)); auto. discriminate.
Qed.

Lemma nonempty_zero (n : nat) b : (Nat.ltb 0 n && (b =? 0))%bool = true <-> (0 < n)%nat /\ b = 0.
Proof. rewrite Bool.andb_true_iff, Nat.ltb_lt, Z.eqb_eq. tauto. Qed.
Lemma nd_step ms st c : hv ms st -> Forall int_features (uses c) -> acts ms st c.
Proof.
  intros H F. pose proof H as (Hs & Hv & Hm & Hb). destruct c;
    try (apply acts_new; [auto|auto|exact I]); try (apply acts_same; [auto|auto|reflexivity]); try (cbn [uses] in F; apply Forall_inv in F; destruct F; fail).
  - (* VAssign *) assert (Op : match operand (ve st) d b with
        | None => forall i, (i < fst (vector_of ms d))%nat -> snd (vector_of ms b) i = snd (vector_of ms d) i
        | Some y => vec y (fst (vector_of ms b)) (snd (vector_of ms b)) end).
    { unfold operand. destruct (Nat.eqb_spec d b) as [->|]; auto. }
    destruct (Nat.eqb_spec (fst (vector_of ms d)) (fst (vector_of ms b))) as [L|L].
    + eapply acts_vec; [exact H| |reflexivity|reflexivity|].
      * cbn [means]. cbv zeta. rewrite L, Nat.eqb_refl. rewrite <- L. reflexivity.
      * rewrite <- L in Op. pose proof (assign_own (Sum o) _ _ _ (operand (ve st) d b) (snd (vector_of ms b)) (Hv d) Op ltac:(discriminate)) as W. destruct o; exact W.
    + assert (E : nd_perform st (VAssign o d b) = (set_ve st d (ve st d), Throw InvalidArgument)).
      { cbn [nd_perform]. unfold in_ve, vec_assign'. replace (Nat.eqb (length (ve st d)) (length (rd (ve st d) (operand (ve st) d b)))) with false; [reflexivity|].
        symmetry. apply Nat.eqb_neq. destruct (Hv d) as [-> _]. unfold operand in *. destruct (Nat.eqb_spec d b) as [->|]; [congruence|]. cbn [rd]. destruct (Hv b) as [-> _]. exact L. }
      apply (acts_raise _ _ _ InvalidArgument); rewrite ?E; [apply put_back_v; auto| |reflexivity].
      cbn [means]. cbv zeta. apply Nat.eqb_neq in L. rewrite L. reflexivity.
  - (* VMulA *) eapply acts_vec; [exact H|reflexivity|reflexivity|reflexivity|]. apply (scale_val Product); auto. discriminate.
  - (* VDivA *) destruct (Nat.ltb 0 (fst (vector_of ms d)) && (scalar_of ms s =? 0))%bool eqn:Z.
    + apply nonempty_zero in Z as [Hn Z]. pose proof (Hs s) as Rs. rewrite Z in Rs. pose proof (scale_zero _ _ _ _ (Hv d) Hn Rs) as E.
      apply (acts_raise _ _ _ DivideByZero); cbn [nd_perform]; unfold in_ve; change div_assign_nd with (eop Quotient); rewrite ?E; [apply put_back_v; auto| |reflexivity].
      cbn [means Z_algebra feq zero]. cbv zeta. rewrite Z, (proj2 (Nat.ltb_lt _ _) Hn). reflexivity.
    + eapply acts_vec; [exact H| |reflexivity|reflexivity|].
      * cbn [means Z_algebra feq zero]. cbv zeta. rewrite Z. reflexivity.
      * apply (scale_val Quotient); auto. intros _ Hn Z0. assert (T : (Nat.ltb 0 (fst (vector_of ms d)) && (scalar_of ms s =? 0))%bool = true) by (apply nonempty_zero; auto). congruence.
  - (* VMulOwn *) destruct (Nat.ltb_spec k (fst (vector_of ms d))) as [Hk|Hk].
    + eapply acts_vec; [exact H| |reflexivity|reflexivity|].
      * cbn [means]. cbv zeta. rewrite (proj2 (Nat.ltb_lt _ _) Hk). reflexivity.
      * apply (scale_own Product); auto. discriminate.
    + left. cbn [means]. cbv zeta. rewrite (proj2 (Nat.ltb_ge _ _) Hk). reflexivity.
  - (* VDivOwn *) destruct (Nat.ltb_spec k (fst (vector_of ms d))) as [Hk|Hk].
    + destruct (Z.eqb_spec (snd (vector_of ms d) k) 0) as [Z|Z].
      * pose proof (own_zero _ _ _ _ (Hv d) Hk Z) as E.
        apply (acts_raise _ _ _ DivideByZero); cbn [nd_perform]; unfold in_ve; change div_assign_nd with (eop Quotient); rewrite ?E; [apply put_back_v; auto| |reflexivity].
        cbn [means Z_algebra feq zero]. cbv zeta. rewrite (proj2 (Nat.ltb_lt _ _) Hk), Z. reflexivity.
      * eapply acts_vec; [exact H| |reflexivity|reflexivity|].
        -- cbn [means Z_algebra feq zero]. cbv zeta. rewrite (proj2 (Nat.ltb_lt _ _) Hk), (proj2 (Z.eqb_neq _ _) Z). reflexivity.
        -- pose proof (scale_own Quotient _ _ _ _ (Hv d) Hk (fun _ => Z)) as W. cbn [zop] in W. cbv zeta in W. cbn [Z_algebra fdiv]. rewrite (Z.quot_same _ Z) in *. exact W.
    + left. cbn [means]. cbv zeta. rewrite (proj2 (Nat.ltb_ge _ _) Hk). reflexivity.
  - (* MAssign *)
    destruct ((Nat.eqb (fst (fst (matrix_of ms d))) (fst (fst (matrix_of ms b)))) && (Nat.eqb (snd (fst (matrix_of ms d))) (snd (fst (matrix_of ms b)))))%bool eqn:L.
    + pose proof L as L'. apply Bool.andb_true_iff in L' as [L1 L2]. apply Nat.eqb_eq in L1, L2.
      eapply acts_mat; [exact H| |reflexivity|reflexivity|reflexivity|].
      * cbn [means]. cbv zeta. rewrite L. reflexivity.
      * assert (Op : match operand (ma st) d b with
          | None => forall i j, (i < fst (fst (matrix_of ms d)))%nat -> (j < snd (fst (matrix_of ms d)))%nat -> snd (matrix_of ms b) i j = snd (matrix_of ms d) i j
          | Some y => mat_of R_any y (fst (fst (matrix_of ms d))) (snd (fst (matrix_of ms d))) (snd (matrix_of ms b)) end).
        { unfold operand. destruct (Nat.eqb_spec d b) as [->|]; auto. rewrite L1, L2. auto. }
        pose proof (mat_assign_own (Sum o) _ _ _ _ (operand (ma st) d b) (snd (matrix_of ms b)) (Hm d) Op ltac:(discriminate)) as W. destruct o; exact W.
    + assert (E : nd_perform st (MAssign o d b) = (set_ma st d (ma st d), Throw DomainError)).
      { cbn [nd_perform]. unfold in_ma, mat_assign'. replace (same_dims (ma st d) (rd (ma st d) (operand (ma st) d b))) with false; [reflexivity|].
        unfold same_dims. destruct (Hm d) as (D1 & D2 & _), (Hm b) as (B1 & B2 & _). unfold operand. destruct (Nat.eqb_spec d b) as [->|]; [rewrite !Nat.eqb_refl in L; discriminate|].
        cbn [rd]. rewrite D1, D2, B1, B2. auto. }
      apply (acts_raise _ _ _ DomainError); rewrite ?E; [apply put_back; auto| |reflexivity].
      cbn [means]. cbv zeta. rewrite L. reflexivity.
  - (* MMulA *) eapply acts_mat; [exact H|reflexivity|reflexivity|reflexivity|reflexivity|]. apply (mat_scale_val Product); auto. discriminate.
  - (* MDivA *) destruct (Nat.ltb 0 (fst (fst (matrix_of ms d))) && Nat.ltb 0 (snd (fst (matrix_of ms d))) && (scalar_of ms s =? 0))%bool eqn:Z.
    + pose proof Z as Z'. apply Bool.andb_true_iff in Z' as [Z' Z0]. apply Bool.andb_true_iff in Z' as [Hr Hc]. apply Nat.ltb_lt in Hr, Hc. apply Z.eqb_eq in Z0.
      pose proof (Hs s) as Rs. rewrite Z0 in Rs. pose proof (mat_scale_zero _ _ _ _ _ (Hm d) Hr Hc Rs) as E.
      apply (acts_raise _ _ _ DivideByZero); cbn [nd_perform]; unfold in_ma; change div_assign_nd with (eop Quotient); rewrite ?E; [apply put_back; auto| |reflexivity].
      cbn [means Z_algebra feq zero]. cbv zeta. rewrite Z. reflexivity.
    + eapply acts_mat; [exact H| |reflexivity|reflexivity|reflexivity|].
      * cbn [means Z_algebra feq zero]. cbv zeta. rewrite Z. reflexivity.
      * apply (mat_scale_val Quotient); auto. intros _ Hr Hc Z0. apply Nat.ltb_lt in Hr, Hc. rewrite Hr, Hc, Z0 in Z. discriminate.
  - (* MMulOwn *)
    destruct (Nat.ltb p (fst (fst (matrix_of ms d))) && Nat.ltb q (snd (fst (matrix_of ms d))))%bool eqn:K.
    + pose proof K as K'. apply Bool.andb_true_iff in K' as [Hp Hq]. apply Nat.ltb_lt in Hp, Hq.
      eapply acts_mat; [exact H| |reflexivity|reflexivity|reflexivity|].
      * cbn [means]. cbv zeta. rewrite K. reflexivity.
      * apply (mat_scale_own Product); auto. discriminate.
    + left. cbn [means]. cbv zeta. rewrite K. reflexivity.
  - (* MDivOwn *)
    destruct (Nat.ltb p (fst (fst (matrix_of ms d))) && Nat.ltb q (snd (fst (matrix_of ms d))))%bool eqn:K.
    + pose proof K as K'. apply Bool.andb_true_iff in K' as [Hp Hq]. apply Nat.ltb_lt in Hp, Hq. destruct (Z.eqb_spec (snd (matrix_of ms d) p q) 0) as [Z|Z].
      * pose proof (mat_own_zero _ _ _ _ _ _ (Hm d) Hp Hq Z) as E.
        apply (acts_raise _ _ _ DivideByZero); cbn [nd_perform]; unfold in_ma; change div_assign_nd with (eop Quotient); rewrite ?E; [apply put_back; auto| |reflexivity].
        cbn [means Z_algebra feq zero]. cbv zeta. rewrite K, Z. reflexivity.
      * eapply acts_mat; [exact H| |reflexivity|reflexivity|reflexivity|].
        -- cbn [means Z_algebra feq zero]. cbv zeta. rewrite K, (proj2 (Z.eqb_neq _ _) Z). reflexivity.
        -- pose proof (mat_scale_own Quotient _ _ _ _ _ _ (Hm d) Hp Hq (fun _ => Z)) as W. cbn [zop] in W. cbv zeta in W. cbn [Z_algebra fdiv]. rewrite (Z.quot_same _ Z) in *. exact W.
    + left. cbn [means]. cbv zeta. rewrite K. reflexivity.
Qed.
Theorem nd_programs p : forall ms st, hv ms st -> Forall (fun c => Forall int_features (uses c)) p ->
  goes_astray G ms p \/ exists ms' st' l, nd_execute st p = Ok (st', l) /\ gives G ms p ms' l /\ hv ms' st'.
Proof.
  induction p as [|c p IH]; intros ms st H F.
  - right. exists ms, st, []. splits; auto. constructor.
  - apply Forall_cons_iff in F as [Fc Fp]. destruct (nd_step ms st c H Fc) as [U|(x & ms1 & C & V & E)]; [left; constructor; auto|].
    destruct (IH _ _ V Fp) as [St|(ms' & st' & l & E2 & Gs & V')]; [left; eapply astray_later; eauto|].
    right. exists ms', st', (x :: l). splits; auto; [|econstructor; eauto].
    cbn [nd_execute]. destruct (nd_perform st c) as [st1 r]. cbn [fst snd] in *. subst r. destruct x; rewrite E2; reflexivity.
Qed.
(** without std::out_of_range the values are those meant *)
Lemma gives_computes ms p ms' l : gives G ms p ms' l -> ~ In (Some OutOfRange) l -> computes G ms p ms' l.
Proof.
  induction 1 as [ms|ms c x ms1 p ms' l C _ IH]; intros N; [constructor|]. destruct C as [e M D|e ms1 M D L].
  - econstructor; eauto. apply IH. intros I. apply N. right. exact I.
  - destruct N. left. reflexivity.
Qed.
Lemma safe_call ms c x ms' : safe c -> call_gives G ms c x ms' -> exists e, means G ms c e /\ e <> Undefined /\ x = thrown e /\ ms' = after e ms.
Proof.
  intros S [e M D|e ms1 M D L]; [exists e; auto|]. exfalso. unfold leaves_values in L.
  destruct c; cbn [safe vec_operand mat_operand] in *; try contradiction; try (destruct L as [L _]; exact (S L)); try (destruct S; exact I).
  - destruct L as (n & w & k & u & _ & _ & [] & _).
  - destruct L as (n & w & k' & u & _ & _ & [] & _).
  - destruct L as (r & c & w & i & j & u & _ & _ & _ & [] & _).
  - destruct L as (r & c & w & i & j & u & _ & _ & _ & [] & _).
Qed.
Lemma safe_gives ms p ms' l : Forall safe p -> gives G ms p ms' l -> computes G ms p ms' l.
Proof.
  intros S. induction 1 as [ms|ms c x ms1 p ms' l C _ IH]; [constructor|]. apply Forall_cons_iff in S as [Sc Sp].
  destruct (safe_call _ _ _ _ Sc C) as (e & M & D & -> & ->). econstructor; eauto.
Qed.
Lemma safe_astray ms p : Forall safe p -> goes_astray G ms p -> strays G ms p.
Proof.
  intros S. induction 1 as [ms c p U|ms c x ms1 p C _ IH]; [constructor; auto|]. apply Forall_cons_iff in S as [Sc Sp].
  destruct (safe_call _ _ _ _ Sc C) as (e & M & D & -> & ->). eapply strays_later; eauto.
Qed.
End Calls.
