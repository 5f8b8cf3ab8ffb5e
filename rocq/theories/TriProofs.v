(** determinant() of an upper triangular matrix without zeros on the diagonal, for
    every element type (src/Mat.hpp:357-403): the elimination only ever divides
    zeros, so types whose division is not exact do. *)
From Verif Require Import Base IntModel ElemModel ElemSpec ElemProofs VecModel VecProofs MatModel MatSpec MatProofs MatElim.
Local Open Scope nat_scope.

Section Triangular.
Context {T A : Type} (E : ops T) (ab : halt -> Prop) (R : T -> A -> Prop) (zero : A -> Prop) (n : nat) (g : nat -> nat -> A) (Rp : nat -> T -> Prop) (Q : T -> Prop).
Hypotheses (Heq : forall x a, R x a -> ~ zero a -> ret ab (eqb E x (of_int E 0)) (fun e => e = false))
  (Hmul0 : forall x y a b, R x a -> zero a -> R y b -> ret ab (mul E x y) (fun r => exists c, R r c /\ zero c))
  (Hdiv0 : forall x y a b, R x a -> zero a -> R y b -> ~ zero b -> ret ab (div E x y) (fun r => exists c, R r c /\ zero c))
  (Hsub0 : forall x y a b, R x a -> R y b -> zero b -> ret ab (subA E x (Some y)) (fun r => R r a))
  (Htri : forall i j, i < n -> j < i -> zero (g i j)) (Hdiag : forall i, i < n -> ~ zero (g i i))
  (Hp0 : Rp 0 (of_int E 1))
  (HpS : forall k p x, k < n -> Rp k p -> R x (g k k) -> ret ab (mulA E p (Some x)) (fun r => Rp (S k) r))
  (Hlast : forall p, Rp n p -> ret ab (div E p (of_int E 1)) Q)
  (H2 : n = 2 -> forall x00 x01 x10 x11, R x00 (g 0 0) -> R x01 (g 0 1) -> R x10 (g 1 0) -> R x11 (g 1 1) ->
    ret ab (p <- mul E x00 x11 ;; q <- mul E x01 x10 ;; sub E p q) Q)
  (H1 : n = 1 -> forall x, R x (g 0 0) -> Q x).
Local Notation same m := (mat_of R m n n g).

Lemma tri_clear m r : r < n -> same m -> sret ab (det_clear E m r r) (fun d => same d).
Proof.
  intros Hr Hm. unfold det_clear. destruct (mat_of_dims R m n n g Hm) as (-> & _).
  destruct (Nat.le_gt_cases n (r + 1)) as [L|L].
  { unfold for_to. replace (n - (r + 1)) with 0 by lia. apply sret_done. exact Hm. }
  apply (sret_for_to ab (fun _ d => same d) (r + 1) n); [lia|exact Hm|]. intros i d Hi Hd.
  destruct (Nat.eqb_spec i r); [lia|].
  eapply sret_eval; [apply (entry_of ab R d n n g i r Hd); lia|]. intros v Hv.
  destruct (mat_of_dims R d n n g Hd) as (_ & -> & _).
  apply (sret_for_to ab (fun _ d => same d) r n); [lia|exact Hd|]. intros j t Hj Ht.
  eapply (sret_eval ab t _ _ (fun q => exists c, R q c /\ zero c)).
  - eapply ret_bind; [apply (entry_of ab R t n n g r j Ht); lia|]. intros a Ha.
    eapply ret_bind; [apply (Hmul0 v a _ _ Hv (Htri i r ltac:(lia) ltac:(lia)) Ha)|]. intros p (c & Hp & Hc).
    eapply ret_bind; [apply (entry_of ab R t n n g r r Ht); lia|]. intros b Hb.
    apply (Hdiv0 p b _ _ Hp Hc Hb). auto.
  - intros q (c & Hq & Hc). eapply sret_mono; [apply (assign_of ab R (subA E) (fun a _ => a) t n n g i j q c); [intros; eapply Hsub0; eauto|exact Ht|lia|lia]|].
    intros t' Ht'. eapply mat_of_ext; [exact Ht'|]. intros i' j' _ _. cbn beta.
    destruct (Nat.eqb_spec i' i), (Nat.eqb_spec j' j); cbn [andb]; subst; auto.
Qed.
Lemma tri_rows k : forall r m f, r + k = n -> same m -> f = of_int E 1 -> ret ab (det_rows E k r m f r) (fun '(t, f') => same t /\ f' = of_int E 1).
Proof.
  induction k as [|k IH]; intros r m f Hk Hm Hf; cbn [det_rows]; [apply ret_ok; auto|].
  destruct (mat_of_dims R m n n g Hm) as (Dr & Dc & _). rewrite Dc.
  destruct (Nat.leb_spec n r); [lia|].
  unfold pivot_fuel. cbn [find_pivot].
  eapply (ret_bind ab) with (P := fun o => o = Some (r, r)); [|intros o ->].
  {
    eapply ret_bind; [apply (entry_of ab R m n n g r r Hm); lia|]. intros x Hx.
    eapply ret_bind; [apply (Heq _ _ Hx); apply Hdiag; lia|]. intros b ->. apply ret_ok. reflexivity. }
  rewrite Nat.eqb_refl. cbn [bind].
  eapply ret_bind; [apply ret_final, tri_clear; [lia|exact Hm]|]. intros t Ht. cbn beta in Ht.
  replace (r + 1) with (S r) by lia. apply IH; auto. lia.
Qed.
Theorem determinant_triangular m : same m -> ret ab (determinant E m) Q.
Proof.
  intros Hm. unfold determinant. destruct (mat_of_dims R m n n g Hm) as (Dr & Dc & _). rewrite Dr, Dc, Nat.eqb_refl. cbn [negb].
  destruct (Nat.eqb_spec n 1) as [E1|N1].
  { pose proof Hm as (_ & _ & _ & H). destruct (H 0 0) as (x & Ex & Hx); [lia..|]. unfold read. rewrite E1 in Ex. cbn [Nat.mul Nat.add] in Ex. rewrite Ex.
    apply ret_ok. rewrite E1 in *. apply H1; auto. }
  destruct (Nat.eqb_spec n 2) as [E2|N2].
  { pose proof Hm as (_ & _ & _ & H). destruct (H 0 0) as (x & Ex & Hx); [lia..|]. destruct (H 0 1) as (y & Ey & Hy); [lia..|].
    destruct (H 1 0) as (z & Ez & Hz); [lia..|]. destruct (H 1 1) as (w & Ew & Hw); [lia..|].
    rewrite E2 in *. unfold det2, read. cbn [Nat.mul Nat.add] in *. rewrite Ex, Ey, Ez, Ew. cbn [bind]. apply H2; auto. }
  eapply ret_bind; [apply (Mat_copy_ok E ab R m n n g Hm)|]. intros t Ht. cbn beta in Ht.
  destruct (mat_of_dims R t n n g Ht) as (-> & _).
  eapply ret_bind; [apply tri_rows; [reflexivity|exact Ht|reflexivity]|]. intros (t' & f) (Ht' & ->).
  destruct (mat_of_dims R t' n n g Ht') as (-> & _).
  eapply ret_bind; [apply ret_final, (sret_for ab (fun k p => Rp k p) n 0); [exact Hp0|]|intros p Hp; cbn beta in Hp; apply Hlast, Hp].
  intros k p Hk Hp. eapply (sret_eval ab p _ _ (fun y => Rp (S k) y)).
  - eapply ret_bind; [apply (entry_of ab R t' n n g k k Ht'); lia|]. intros x Hx. apply (HpS k p x); [lia|exact Hp|exact Hx].
  - intros y Hy. apply sret_done. exact Hy.
Qed.
End Triangular.

(** *** Lower triangular matrices
    The elimination changes only what is below the diagonal and read no more. *)
Lemma assign_at {T A} ab (R : T -> A -> Prop) op m r c g i j y a' : mat_of R m r c g -> (i < r) -> (j < c) ->
  (forall x, R x (g i j) -> ret ab (op x (Some y)) (fun z => R z a')) ->
  sret ab (assign_entry op m i j (Some y)) (fun d => mat_of R d r c (fun i' j' => if ((i' =? i) && (j' =? j)) then a' else g i' j')).
Proof.
  intros Hm Hi Hj Hop. unfold assign_entry. eapply sret_eval.
  - eapply ret_bind; [apply (entry_of ab R m r c g i j); auto|]. intros x Hx. apply Hop. exact Hx.
  - intros z Hz. eapply set_of; eauto.
Qed.

Section Lower.
Context {T A : Type} (E : ops T) (ab : halt -> Prop) (R : T -> A -> Prop) (zero : A -> Prop) (n : nat) (g : nat -> nat -> A) (Rp : nat -> T -> Prop) (Q : T -> Prop).
Hypotheses (Heq : forall x a, R x a -> ~ zero a -> ret ab (eqb E x (of_int E 0)) (fun e => e = false))
  (Hmul0 : forall x y a b, R x a -> R y b -> zero b -> ret ab (mul E x y) (fun r => exists c, R r c /\ zero c))
  (Hdiv0 : forall x y a b, R x a -> zero a -> R y b -> ~ zero b -> ret ab (div E x y) (fun r => exists c, R r c /\ zero c))
  (Hsub0 : forall x y a b, R x a -> R y b -> zero b -> ret ab (subA E x (Some y)) (fun r => R r a))
  (Hdead : forall x y z a b, R x a -> R y b -> R z b -> ~ zero b ->
    ret ab (p <- mul E x y ;; div E p z) (fun q => forall w, R w a -> ret ab (subA E w (Some q)) (fun _ => True)))
  (Htri : forall i j, i < j -> j < n -> zero (g i j)) (Hdiag : forall i, i < n -> ~ zero (g i i))
  (Hp0 : Rp 0 (of_int E 1))
  (HpS : forall k p x, k < n -> Rp k p -> R x (g k k) -> ret ab (mulA E p (Some x)) (fun r => Rp (S k) r))
  (Hlast : forall p, Rp n p -> ret ab (div E p (of_int E 1)) Q)
  (H2 : n = 2 -> forall x00 x01 x10 x11, R x00 (g 0 0) -> R x01 (g 0 1) -> R x10 (g 1 0) -> R x11 (g 1 1) ->
    ret ab (p <- mul E x00 x11 ;; q <- mul E x01 x10 ;; sub E p q) Q)
  (H1 : n = 1 -> forall x, R x (g 0 0) -> Q x).
Definition known (x : T) (o : option A) : Prop := match o with None => True | Some a => R x a end.
(** the first r columns are cleared, column r down to row i *)
Definition cleared (r i a b : nat) : option A := if (b <? a) && ((b <? r) || (b =? r) && (a <? i)) then None else Some (g a b).
Local Notation low r i m := (mat_of known m n n (cleared r i)).
Ltac cases := repeat match goal with
  | |- context [?a =? ?b] => destruct (Nat.eqb_spec a b); subst; cbn [andb orb] in *
  | |- context [?a <? ?b] => destruct (Nat.ltb_spec a b); cbn [andb orb] in *
  end; auto; try lia; try congruence.

Lemma low_entry r i m a b : low r i m -> a < n -> b < n -> cleared r i a b = Some (g a b) -> ret ab (entry m a b) (fun x => R x (g a b)).
Proof. intros Hm Ha Hb Hc. eapply ret_mono; [apply (entry_of ab known m n n _ a b Hm); auto|]. intros x. rewrite Hc. auto. Qed.
Lemma low_clear m r : r < n -> low r 0 m -> sret ab (det_clear E m r r) (fun d => low (S r) 0 d).
Proof.
  intros Hr Hm. unfold det_clear. destruct (mat_of_dims known m n n _ Hm) as (-> & _).
  destruct (Nat.le_gt_cases n (r + 1)) as [L|L].
  { unfold for_to. replace (n - (r + 1)) with 0 by lia. apply sret_done. eapply mat_of_ext; [exact Hm|]. intros a b Ha Hb. unfold cleared. cases. }
  eapply sret_mono; [apply (sret_for_to ab (fun i d => low r i d) (r + 1) n); [lia| |]|].
  - eapply mat_of_ext; [exact Hm|]. intros a b Ha Hb. unfold cleared. cases.
  - intros i d Hi Hd. destruct (Nat.eqb_spec i r); [lia|].
    eapply sret_eval; [apply (low_entry r i d i r Hd); [lia|lia|unfold cleared; cases]|]. intros v Hv. cbn beta in Hv.
    destruct (mat_of_dims known d n n _ Hd) as (_ & -> & _).
    eapply sret_mono; [apply (sret_for_to ab (fun j d => if j =? r then low r i d else low r (S i) d) r n); [lia|rewrite Nat.eqb_refl; exact Hd|]|].
    + intros j t Hj Ht. assert (F : (1 + j =? r) = false) by (apply Nat.eqb_neq; lia). destruct (Nat.eqb_spec j r) as [->|Nj].
      * eapply (sret_eval ab t _ _ (fun q => forall w, R w (g i r) -> ret ab (subA E w (Some q)) (fun _ => True))).
        -- eapply ret_bind; [apply (low_entry r i t r r Ht); [lia|lia|unfold cleared; cases]|]. intros a Ha. cbn beta in Ha.
           assert (P : ret ab (entry t r r) (fun x => R x (g r r))) by (apply (low_entry r i t r r Ht); [lia|lia|unfold cleared; cases]).
           destruct P as [(b & Eb & Hb)|(h & Hh & Eb)]; rewrite Eb.
           ++ cbn [bind]. apply (Hdead v a b _ _ Hv Ha Hb (Hdiag r Hr)).
           ++ specialize (Hdead v a a _ _ Hv Ha Ha (Hdiag r Hr)). destruct (mul E v a); cbn [bind] in *; [right; exists h; destruct h; auto|..];
                (destruct Hdead as [(? & X & _)|(h' & Hh' & X)]; [discriminate|right; exists h'; auto]).
        -- intros q Hq. eapply sret_mono; [apply (assign_at ab known (subA E) t n n _ i r q None Ht); [lia|lia|]|].
           ++ intros x Hx. apply Hq. unfold cleared in Hx. revert Hx. cases.
           ++ intros t' Ht'. rewrite F. eapply mat_of_ext; [exact Ht'|]. intros a b Ha Hb. unfold cleared. cases.
      * eapply (sret_eval ab t _ _ (fun q => exists c, R q c /\ zero c)).
        -- eapply ret_bind; [apply (low_entry r (S i) t r j Ht); [lia|lia|unfold cleared; cases]|]. intros a Ha.
           eapply ret_bind; [apply (Hmul0 v a _ _ Hv Ha), Htri; lia|]. intros p (c & Hp & Hc).
           eapply ret_bind; [apply (low_entry r (S i) t r r Ht); [lia|lia|unfold cleared; cases]|]. intros b Hb. cbn beta in Hb.
           apply (Hdiv0 p b _ _ Hp Hc Hb). auto.
        -- intros q (c & Hq & Hc). eapply sret_mono; [apply (assign_at ab known (subA E) t n n _ i j q (cleared r (S i) i j) Ht); [lia|lia|]|].
           ++ intros x. unfold cleared. cases; cbn [known]; intros Hx; try (eapply Hsub0; eauto). 
           ++ intros t' Ht'. rewrite F. eapply mat_of_ext; [exact Ht'|]. intros a b Ha Hb. cbn beta. cases.
    + intros t Ht. cbn beta in Ht. revert Ht. cases.
  - intros d Hd. eapply mat_of_ext; [exact Hd|]. intros a b Ha Hb. unfold cleared. cases.
Qed.

Lemma low_rows k : forall r m f, r + k = n -> low r 0 m -> f = of_int E 1 -> ret ab (det_rows E k r m f r) (fun '(t, f') => low n 0 t /\ f' = of_int E 1).
Proof.
  induction k as [|k IH]; intros r m f Hk Hm Hf; cbn [det_rows]; [apply ret_ok; assert (r = n) as -> by lia; auto|].
  destruct (mat_of_dims known m n n _ Hm) as (Dr & Dc & _). rewrite Dc.
  destruct (Nat.leb_spec n r); [lia|].
  unfold pivot_fuel. cbn [find_pivot].
  eapply (ret_bind ab) with (P := fun o => o = Some (r, r)); [|intros o ->].
  { eapply ret_bind; [apply (low_entry r 0 m r r Hm); [lia|lia|unfold cleared; cases]|]. intros x Hx.
    eapply ret_bind; [apply (Heq _ _ Hx); apply Hdiag; lia|]. intros b ->. apply ret_ok. reflexivity. }
  rewrite Nat.eqb_refl. cbn [bind].
  eapply ret_bind; [apply ret_final, low_clear; [lia|exact Hm]|]. intros t Ht. cbn beta in Ht.
  replace (r + 1) with (S r) by lia. apply IH; auto. lia.
Qed.
Theorem determinant_lower m : mat_of R m n n g -> ret ab (determinant E m) Q.
Proof.
  intros Hm. unfold determinant. destruct (mat_of_dims R m n n g Hm) as (Dr & Dc & _). rewrite Dr, Dc, Nat.eqb_refl. cbn [negb].
  destruct (Nat.eqb_spec n 1) as [E1|N1].
  { pose proof Hm as (_ & _ & _ & H). destruct (H 0 0) as (x & Ex & Hx); [lia..|]. unfold read. rewrite E1 in Ex. cbn [Nat.mul Nat.add] in Ex. rewrite Ex.
    apply ret_ok. rewrite E1 in *. apply H1; auto. }
  destruct (Nat.eqb_spec n 2) as [E2|N2].
  { pose proof Hm as (_ & _ & _ & H). destruct (H 0 0) as (x & Ex & Hx); [lia..|]. destruct (H 0 1) as (y & Ey & Hy); [lia..|].
    destruct (H 1 0) as (z & Ez & Hz); [lia..|]. destruct (H 1 1) as (w & Ew & Hw); [lia..|].
    rewrite E2 in *. unfold det2, read. cbn [Nat.mul Nat.add] in *. rewrite Ex, Ey, Ez, Ew. cbn [bind]. apply H2; auto. }
  eapply ret_bind; [apply (Mat_copy_ok E ab R m n n g Hm)|]. intros t Ht. cbn beta in Ht.
  assert (Lt : low 0 0 t).
  { destruct Ht as (T1 & T2 & T3 & Ht). split; [exact T1|]. split; [exact T2|]. split; [exact T3|]. intros a b Ha Hb. destruct (Ht a b Ha Hb) as (x & Ex & Hx). exists x. split; auto. unfold cleared. cases. }
  destruct (mat_of_dims known t n n _ Lt) as (-> & _).
  eapply ret_bind; [apply low_rows; [reflexivity|exact Lt|reflexivity]|]. intros (t' & f) (Ht' & ->).
  destruct (mat_of_dims known t' n n _ Ht') as (-> & _).
  eapply ret_bind; [apply ret_final, (sret_for ab (fun k p => Rp k p) n 0); [exact Hp0|]|intros p Hp; cbn beta in Hp; apply Hlast, Hp].
  intros k p Hk Hp. eapply (sret_eval ab p _ _ (fun y => Rp (S k) y)).
  - eapply ret_bind; [apply (low_entry n 0 t' k k Ht'); [lia|lia|unfold cleared; cases]|]. intros x Hx. apply (HpS k p x); [lia|exact Hp|exact Hx].
  - intros y Hy. apply sret_done. exact Hy.
Qed.
End Lower.
