(** Matrices with entries that hold no value yet. *)
From Coq Require Import ZifyBool.
From Verif Require Import Base IntModel IOModel ElemModel ElemSpec VecModel MatModel MatSpec ElemProofs MatProofs DoubleModel.
Local Open Scope list_scope.
Local Open Scope nat_scope.

(** Returns a value or is undefined; never throws. *)
Definition plain {A} (m : res A) : Prop := (exists a, m = Ok a) \/ m = UB.
Definition splain {S} (p : outcome S) : Prop := snd p = Ok tt \/ snd p = UB.

Lemma plain_ok {A} (a : A) : plain (Ok a).
Proof. left. eauto. Qed.
Lemma plain_bind {A B} (m : res A) (f : A -> res B) : plain m -> (forall a, plain (f a)) -> plain (bind m f).
Proof. intros [(a & ->)| ->] H; cbn; [apply H|right; reflexivity]. Qed.
Lemma plain_eval {S A} (s : S) (m : res A) k : plain m -> (forall a, splain (k a)) -> splain (eval s m k).
Proof. intros [(a & ->)| ->] H; cbn; [apply H|right; reflexivity]. Qed.
Lemma splain_andthen {S} (p : outcome S) k : splain p -> (forall s, splain (k s)) -> splain (andthen p k).
Proof. destruct p as [s r]. intros [E|E] H; cbn in E; subst r; cbn; [apply H|right; reflexivity]. Qed.
Lemma splain_for {S} n : forall a body (s : S), (forall i s, splain (body i s)) -> splain (for_ n a body s).
Proof. induction n as [|n IH]; intros a body s H; cbn [for_]; [left; reflexivity|]. apply splain_andthen; auto. Qed.
Lemma plain_final {S} (p : outcome S) : splain p -> plain (final p).
Proof. destruct p as [s r]. intros [E|E]; cbn in E; subst r; cbn; [apply plain_ok|right; reflexivity]. Qed.
Lemma plain_entry {T} (m : Mat T) i j : plain (entry m i j).
Proof. unfold entry, read. destruct (nth_error _ _) as [[x|]|]; [apply plain_ok|right; reflexivity..]. Qed.
Lemma splain_set {T} (m : Mat T) i j x : splain (set_entry m i j x).
Proof. unfold set_entry. destruct (_ <? _); [left|right]; reflexivity. Qed.

(** A loop of plain rounds one of which is undefined. *)
Lemma for_ub {S} n : forall a body (s : S) k, (forall i s, splain (body i s)) -> a <= k < a + n -> (forall s, snd (body k s) = UB) -> snd (for_ n a body s) = UB.
Proof.
  induction n as [|n IH]; intros a body s k H Hk U; [lia|]. cbn [for_]. destruct (Nat.eq_dec a k) as [->|N].
  - specialize (U s). destruct (body k s) as [t r]. cbn in U. subst r. reflexivity.
  - destruct (H a s) as [E|E]; destruct (body a s) as [t r]; cbn in E; subst r; cbn; [|reflexivity]. apply (IH _ _ _ k); auto. lia.
Qed.
Lemma fill_ub {T} r c f (m : Mat T) i j : (forall i j, plain (f i j)) -> i < r -> j < c -> f i j = UB -> final (fill r c f m) = UB.
Proof.
  intros P Hi Hj U. assert (P2 : forall i j s, splain (eval s (f i j) (fun x => set_entry s i j x))) by (intros; apply plain_eval; auto using splain_set).
  assert (G : snd (fill r c f m) = UB).
  { apply (for_ub _ _ _ _ i); [intros; apply splain_for; auto|lia|]. intros s. apply (for_ub _ _ _ _ j); auto; [lia|]. intros t. rewrite U. reflexivity. }
  destruct (fill r c f m) as [t q]. cbn in G. subst q. reflexivity.
Qed.

(** Element types that never throw. *)
Record quiet {T} (E : ops T) : Prop := {
  q_add : forall x y, plain (add E x y); q_sub : forall x y, plain (sub E x y); q_mul : forall x y, plain (mul E x y);
  q_div : forall x y, plain (div E x y); q_neg : forall x, plain (neg E x); q_addA : forall x y, plain (addA E x y) }.
Lemma plain_i32 z : plain (i32 z).
Proof. unfold i32. destruct (in_int32 z); [apply plain_ok|right; reflexivity]. Qed.
Lemma quiet_int32 : quiet int32_ops.
Proof.
  constructor; intros; cbn; auto using plain_i32. unfold int32_div. destruct (_ =? _)%Z; [right; reflexivity|apply plain_i32].
Qed.
Lemma quiet_double : quiet double_ops.
Proof. constructor; intros; cbn; apply plain_ok. Qed.

Section Unset.
Context {T : Type} (E : ops T) (Q : quiet E).
Local Notation M := (Mat T).

Lemma new_entry r c i j : i < r -> j < c -> entry (Mat_new E r c) i j = match fresh E with Some x => Ok x | None => UB end.
Proof.
  intros Hi Hj. unfold entry, read, Mat_new, offset. cbn [cols data]. assert (L : i * c + j < r * c) by nia.
  assert (N : nth_error (repeat (fresh E) (r * c)) (i * c + j) = Some (fresh E)).
  { rewrite (nth_error_nth' _ (fresh E)) by now rewrite repeat_length. f_equal. apply nth_repeat. }
  rewrite N. destruct (fresh E); reflexivity.
Qed.

Lemma copy_unset m r c i j : dims m r c -> i < r -> j < c -> entry m i j = UB -> Mat_copy E m = UB.
Proof.
  intros (Dr & Dc & L) Hi Hj U. unfold Mat_copy, setEntries_ptr. cbn [rows cols Mat_new]. rewrite Dr, Dc, Nat.ltb_irrefl.
  apply fill_ub with i j; auto.
  - intros. unfold read. destruct (nth_error _ _) as [[x|]|]; [apply plain_ok|right; reflexivity..].
  - unfold entry, offset in *. cbn [cols Mat_new]. rewrite Dc in U. exact U.
Qed.
Lemma neg_unset m r c i j : dims m r c -> i < r -> j < c -> entry m i j = UB -> M_neg E m = UB.
Proof.
  intros (Dr & Dc & L) Hi Hj U. unfold M_neg. rewrite Dr, Dc. apply fill_ub with i j; auto.
  - intros. apply plain_bind; [apply plain_entry|apply (q_neg E Q)].
  - rewrite U. reflexivity.
Qed.
Lemma binary_unset op a b r c i j : (forall x y, plain (op x y)) -> dims a r c -> dims b r c -> i < r -> j < c -> entry a i j = UB \/ entry b i j = UB ->
  mat_binary E op a b = UB.
Proof.
  intros P (Ar & Ac & _) (Br & Bc & _) Hi Hj U. unfold mat_binary, same_dims. rewrite Ar, Ac, Br, Bc, !Nat.eqb_refl. cbn [negb andb].
  apply fill_ub with i j; auto.
  - intros. apply plain_bind; [apply plain_entry|intros]. apply plain_bind; [apply plain_entry|auto].
  - destruct (plain_entry a i j) as [(x & Ex)|Ex]; rewrite Ex in *; cbn; [|reflexivity]. destruct U as [U|U]; [discriminate|]. rewrite U. reflexivity.
Qed.
Lemma scale_unset s m r c i j : dims m r c -> i < r -> j < c -> entry m i j = UB -> M_scale E s m = UB /\ M_div E m s = UB.
Proof.
  intros (Dr & Dc & L) Hi Hj U. unfold M_scale, M_div. rewrite Dr, Dc. split; apply fill_ub with i j; auto; try (rewrite U; reflexivity).
  - intros. apply plain_bind; [apply plain_entry|intros; apply (q_mul E Q)].
  - intros. apply plain_bind; [apply plain_entry|intros; apply (q_div E Q)].
Qed.
Lemma transpose_unset m r c i j : dims m r c -> i < r -> j < c -> entry m i j = UB -> transpose E m = UB.
Proof.
  intros (Dr & Dc & L) Hi Hj U. unfold transpose. rewrite Dr, Dc.
  assert (P2 : forall i j s, splain (eval s (entry m i j) (fun x => set_entry s j i x))) by (intros; apply plain_eval; auto using splain_set, plain_entry).
  match goal with |- final ?p = _ => assert (G : snd p = UB) end.
  { apply (for_ub _ _ _ _ i); [intros; apply splain_for; auto|lia|]. intros s. apply (for_ub _ _ _ _ j); auto; [lia|]. intros t. rewrite U. reflexivity. }
  match goal with |- final ?p = _ => destruct p as [t q] end. cbn in G. subst q. reflexivity.
Qed.
Lemma print_unset pr o m r c i j : dims m r c -> i < r -> j < c -> entry m i j = UB -> M_print E pr o m = UB.
Proof. intros D Hi Hj U. unfold M_print. rewrite (copy_unset m r c i j) by auto. reflexivity. Qed.
End Unset.

(** *** Writes *)
Section Writes.
Context {T : Type}.
Local Notation M := (Mat T).
Definition writes (l : list (nat * nat * T)) (m : M) : M := fold_left (fun m w => fst (set_entry m (fst (fst w)) (snd (fst w)) (snd w))) l m.
Fixpoint last_write (i j : nat) (l : list (nat * nat * T)) : option T :=
  match l with
  | [] => None
  | (p, q, x) :: l' => match last_write i j l' with
                       | Some y => Some y
                       | None => if (p =? i) && (q =? j) then Some x else None
                       end
  end.
Lemma nth_replace {A} (l : list A) : forall k n (x : A), k < length l -> nth_error (replace l k x) n = if k =? n then Some x else nth_error l n.
Proof.
  induction l as [|y l IH]; intros [|k] [|n] x H; cbn in *; try lia; auto. apply IH. lia.
Qed.
Lemma length_replace {A} (l : list A) : forall k (x : A), length (replace l k x) = length l.
Proof. induction l as [|y l IH]; intros [|k] x; cbn; auto. Qed.
Lemma set_dims r c (m : M) i j x : dims m r c -> dims (fst (set_entry m i j x)) r c.
Proof.
  intros (Dr & Dc & L). unfold set_entry. destruct (_ <? _); cbn [fst done]; [|repeat split; auto].
  split; [exact Dr|]. split; [exact Dc|]. cbn [data]. now rewrite length_replace.
Qed.
Lemma set_get r c (m : M) p q x i j : dims m r c -> p < r -> q < c -> i < r -> j < c ->
  entry (fst (set_entry m p q x)) i j = if (p =? i) && (q =? j) then Ok x else entry m i j.
Proof.
  intros (Dr & Dc & L) Hp Hq Hi Hj. unfold set_entry, entry, offset. rewrite Dc, L. replace (p * c + q <? r * c) with true by (symmetry; apply Nat.ltb_lt; nia).
  cbn [fst done cols data]. unfold read. rewrite nth_replace by (rewrite L; nia).
  destruct (Nat.eqb_spec (p * c + q) (i * c + j)) as [Eq|N].
  - assert (p = i) by (destruct (Nat.lt_trichotomy p i) as [?|[?|?]]; [|auto|]; nia). subst i. assert (q = j) by lia. subst j. rewrite !Nat.eqb_refl. reflexivity.
  - destruct (Nat.eqb_spec p i), (Nat.eqb_spec q j); cbn; auto. subst. lia.
Qed.
Lemma writes_get r c l : forall (m : M) i j, dims m r c -> Forall (fun w => fst (fst w) < r /\ snd (fst w) < c) l -> i < r -> j < c ->
  dims (writes l m) r c /\ entry (writes l m) i j = match last_write i j l with Some x => Ok x | None => entry m i j end.
Proof.
  induction l as [|[[p q] x] l IH]; intros m i j D F Hi Hj; [auto|]. inversion F as [|? ? [Hp Hq] F']; subst. cbn [fst snd] in *.
  destruct (IH (fst (set_entry m p q x)) i j) as [G1 G2]; auto using set_dims. split; [exact G1|].
  cbn [writes fold_left fst snd last_write] in *. unfold writes in G2. rewrite G2. destruct (last_write i j l); auto. rewrite (set_get r c) by auto.
  destruct (_ && _); reflexivity.
Qed.
End Writes.
