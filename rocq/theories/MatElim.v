(** Lemmas about the elimination loops of Mat, for every element type: what each
    loop does, entry by entry. *)
From Verif Require Import Base IntModel IOModel ElemModel ElemSpec ElemProofs VecModel VecProofs MatModel MatSpec MatProofs.
Local Open Scope nat_scope.
Local Open Scope list_scope.

Definition trans (a b i : nat) : nat := if i =? a then b else if i =? b then a else i.

Section Elim.
Context {T A : Type} (E : ops T) (ab : halt -> Prop) (R : T -> A -> Prop).
Context (zero : A) (fsub fmul fdiv : A -> A -> A).
Hypotheses (H0 : R (of_int E 0) zero)
  (HsubA : assign_exact ab R R R (subA E) fsub) (Hmul : binary_exact ab R (mul E) fmul)
  (Hdiv : forall x y a b, R x a -> R y b -> b <> zero -> ret ab (div E x y) (fun z => R z (fdiv a b)))
  (HdivA : forall x y a b, R x a -> R y b -> b <> zero -> ret ab (divA E x (Some y)) (fun z => R z (fdiv a b)))
  (Heq : forall x y a b, R x a -> R y b -> ret ab (eqb E x y) (fun e => e = true <-> a = b)).

Lemma set_of m r c g i j x a : mat_of R m r c g -> i < r -> j < c -> R x a ->
  sret ab (set_entry m i j x) (fun d => mat_of R d r c (fun i' j' => if (i' =? i) && (j' =? j) then a else g i' j')).
Proof.
  intros Hm Hi Hj Hx. apply mat_of_P in Hm. eapply sret_mono; [|intros d Hd; apply mat_of_P; exact Hd].
  eapply set_ok; [exact Hm|auto|auto| |].
  - exists x. rewrite !Nat.eqb_refl. auto.
  - intros i' j' o _ _ N Ho. destruct (Nat.eqb_spec i' i), (Nat.eqb_spec j' j); auto. subst. congruence.
Qed.
Lemma assign_of op (f : A -> A -> A) m r c g i j y b : (forall x a, R x a -> ret ab (op x (Some y)) (fun z => R z (f a b))) ->
  mat_of R m r c g -> i < r -> j < c ->
  sret ab (assign_entry op m i j (Some y)) (fun d => mat_of R d r c (fun i' j' => if (i' =? i) && (j' =? j) then f (g i j) b else g i' j')).
Proof.
  intros Hop Hm Hi Hj. unfold assign_entry. eapply sret_eval.
  - eapply ret_bind; [apply (entry_of ab R m r c g i j); auto|]. intros x Hx. apply Hop. exact Hx.
  - intros z Hz. eapply set_of; eauto.
Qed.

Ltac cases := repeat match goal with
  | |- context [?a =? ?b] => destruct (Nat.eqb_spec a b); subst; cbn [andb orb] in *
  | |- context [?a <? ?b] => destruct (Nat.ltb_spec a b); cbn [andb orb] in *
  | |- context [?a <=? ?b] => destruct (Nat.leb_spec a b); cbn [andb orb] in *
  end; auto; try lia; try congruence.

Lemma swap_rows_ok m r c g a b : mat_of R m r c g -> a < r -> b < r ->
  sret ab (swap_rows m a b) (fun d => mat_of R d r c (fun i j => g (trans a b i) j)).
Proof.
  intros Hm Ha Hb. unfold swap_rows. destruct (Nat.eqb_spec a b) as [->|N].
  - apply sret_done. eapply mat_of_ext; [exact Hm|]. intros i j _ _. unfold trans. cases.
  - destruct (mat_of_dims R m r c g Hm) as (_ & -> & _). eapply sret_mono.
    + apply (sret_for ab (fun k d => mat_of R d r c (fun i j => if j <? k then g (trans a b i) j else g i j)) c 0).
      * eapply mat_of_ext; [exact Hm|]. intros i j _ _. reflexivity.
      * intros k d Hk Hd.
        eapply sret_eval; [apply (entry_of ab R d r c _ a k Hd); auto; lia|]. intros x Hx. cbn beta in Hx. rewrite Nat.ltb_irrefl in Hx.
        eapply sret_eval; [apply (entry_of ab R d r c _ b k Hd); auto; lia|]. intros y Hy. cbn beta in Hy. rewrite Nat.ltb_irrefl in Hy.
        eapply sret_andthen; [eapply set_of; [exact Hd|lia|lia|exact Hy]|]. intros d1 Hd1. cbn beta in Hd1.
        eapply sret_mono; [eapply set_of; [exact Hd1|lia|lia|exact Hx]|]. intros d2 Hd2. cbn beta in Hd2.
        eapply mat_of_ext; [exact Hd2|]. intros i j _ _. cbn beta. unfold trans. cases.
    + intros d Hd. eapply mat_of_ext; [exact Hd|]. intros i j _ Hj. cbn beta. cases.
Qed.

Lemma find_pivot_ok fuel : forall m n c g r i p, mat_of R m n c g -> r <= i < n -> p < c ->
  (forall k, r <= k < i -> g k p = zero) -> (c - p - 1) * n + (n - i) <= fuel ->
  ret ab (find_pivot E fuel m r i p) (fun o => match o with
    | None => forall k q, r <= k < n -> p <= q < c -> g k q = zero
    | Some (k, q) => r <= k < n /\ p <= q < c /\ g k q <> zero /\ forall k' q', r <= k' < n -> p <= q' < q -> g k' q' = zero
    end).
Proof.
  induction fuel as [|fuel IH]; intros m n c g r i p Hm Hi Hp Hz Hf; [exfalso; clear -Hi Hf; nia|]. cbn [find_pivot].
  eapply ret_bind; [apply (entry_of ab R m n c g i p); auto; lia|]. intros x Hx. cbn beta in Hx.
  eapply ret_bind; [apply Heq; [exact Hx|exact H0]|]. intros z Hzz. cbn beta in Hzz.
  destruct (mat_of_dims R m n c g Hm) as (-> & -> & _). destruct z.
  - assert (Ez : g i p = zero) by tauto.
    assert (Hz' : forall k, r <= k < i + 1 -> g k p = zero).
    { intros k Hk. destruct (Nat.eq_dec k i) as [->|]; [auto|apply Hz; lia]. }
    destruct (Nat.eqb_spec n (i + 1)) as [En|En].
    + destruct (Nat.eqb_spec c (p + 1)) as [Ec|Ec].
      * apply ret_ok. intros k q Hk Hq. assert (q = p) as -> by lia. apply Hz'. lia.
      * eapply ret_mono.
        -- apply (IH m n c g r r (p + 1)); auto; try lia.
           replace (c - p - 1) with (S (c - (p + 1) - 1)) in Hf by lia. rewrite Nat.mul_succ_l in Hf. lia.
        -- intros [[k q]|]; cbn beta iota.
           ++ intros (H1 & H2 & H3 & H4). repeat split; auto; try lia. intros k' q' Hk' Hq'.
              destruct (Nat.eq_dec q' p) as [->|]; [apply Hz'; lia|apply H4; lia].
           ++ intros H k q Hk Hq. destruct (Nat.eq_dec q p) as [->|]; [apply Hz'; lia|apply H; lia].
    + apply (IH m n c g r (i + 1) p); auto; lia.
  - apply ret_ok. repeat split; auto; try lia.
    intros H. assert (false = true) by tauto. discriminate.
Qed.
Lemma find_pivot_start m n c g r p : mat_of R m n c g -> r < n -> p < c ->
  ret ab (find_pivot E (pivot_fuel m) m r r p) (fun o => match o with
    | None => forall k q, r <= k < n -> p <= q < c -> g k q = zero
    | Some (k, q) => r <= k < n /\ p <= q < c /\ g k q <> zero /\ forall k' q', r <= k' < n -> p <= q' < q -> g k' q' = zero
    end).
Proof.
  intros Hm Hr Hp. unfold pivot_fuel. destruct (mat_of_dims R m n c g Hm) as (-> & -> & _).
  apply (find_pivot_ok _ m n c g r r p); auto; try lia. nia.
Qed.

Lemma det_clear_ok m n c g r p : mat_of R m n c g -> r < n -> r <= p < c -> g r p <> zero ->
  sret ab (det_clear E m r p) (fun d => mat_of R d n c (fun i j =>
    if (p <? i) && (p <=? j) then fsub (g i j) (fdiv (fmul (g i p) (g r j)) (g r p)) else g i j)).
Proof.
  intros Hm Hr Hp Hnz. unfold det_clear. destruct (mat_of_dims R m n c g Hm) as (Dr & Dc & _). rewrite Dr.
  set (u i j := fsub (g i j) (fdiv (fmul (g i p) (g r j)) (g r p))).
  destruct (Nat.le_gt_cases n (p + 1)) as [L|L].
  { unfold for_to. replace (n - (p + 1)) with 0 by lia. cbn [for_]. apply sret_done. eapply mat_of_ext; [exact Hm|].
    intros i j Hi Hj. cases. }
  eapply sret_mono.
  - apply (sret_for_to ab (fun k d => mat_of R d n c (fun i j => if (p <? i) && (i <? k) && (p <=? j) then u i j else g i j)) (p + 1) n); [lia| |].
    + eapply mat_of_ext; [exact Hm|]. intros i j _ _. cases.
    + intros k d Hk Hd. destruct (Nat.eqb_spec k r); [lia|]. clear n0.
      eapply sret_eval; [apply (entry_of ab R d n c _ k p Hd); lia|]. intros v Hv. cbn beta in Hv.
      rewrite Nat.ltb_irrefl, andb_false_r in Hv. cbn [andb] in Hv.
      destruct (mat_of_dims R d n c _ Hd) as (_ & -> & _).
      eapply sret_mono.
      * apply (sret_for_to ab (fun l d => mat_of R d n c (fun i j =>
          if (p <? i) && (i <? k) && (p <=? j) then u i j else if (i =? k) && (p <=? j) && (j <? l) then u i j else g i j)) p c); [lia| |].
        -- eapply mat_of_ext; [exact Hd|]. intros i j _ _. cases.
        -- intros l d' Hl Hd'.
           eapply (sret_eval ab d' _ _ (fun q => R q (fdiv (fmul (g k p) (g r l)) (g r p)))).
           ++ eapply ret_bind; [apply (entry_of ab R d' n c _ r l Hd'); lia|]. intros a Ha. cbn beta in Ha.
              destruct (Nat.ltb_spec p r); [lia|]. destruct (Nat.eqb_spec r k); [lia|]. cbn [andb] in Ha.
              eapply ret_bind; [apply Hmul; [exact Hv|exact Ha]|]. intros q Hq.
              eapply ret_bind; [apply (entry_of ab R d' n c _ r p Hd'); lia|]. intros b Hb. cbn beta in Hb.
              destruct (Nat.ltb_spec p r); [lia|]. destruct (Nat.eqb_spec r k); [lia|]. cbn [andb] in Hb.
              apply Hdiv; auto.
           ++ intros q Hq. eapply sret_mono; [eapply (assign_of _ fsub); [|exact Hd'|lia|lia]|].
              ** intros x a Hx. apply HsubA; [exact Hx|exact Hq].
              ** intros d'' Hd''. eapply mat_of_ext; [exact Hd''|]. intros i j _ _. unfold u. cases.
      * intros d' Hd'. eapply mat_of_ext; [exact Hd'|]. intros i j _ Hj. cases.
  - intros d Hd. eapply mat_of_ext; [exact Hd|]. intros i j Hi Hj. unfold u. cases.
Qed.

Lemma scale_row_ok m n c g r p v : mat_of R m n c g -> r < n -> p < c -> R v (g r p) -> g r p <> zero ->
  sret ab (for_ (cols m) 0 (fun j m => assign_entry (divA E) m r j (Some v)) m)
    (fun d => mat_of R d n c (fun i j => if i =? r then fdiv (g i j) (g r p) else g i j)).
Proof.
  intros Hm Hr Hp Hv Hnz. destruct (mat_of_dims R m n c g Hm) as (_ & -> & _). eapply sret_mono.
  - apply (sret_for ab (fun k d => mat_of R d n c (fun i j => if (i =? r) && (j <? k) then fdiv (g i j) (g r p) else g i j)) c 0).
    + eapply mat_of_ext; [exact Hm|]. intros i j _ _. cases.
    + intros k d Hk Hd. eapply sret_mono; [eapply (assign_of _ fdiv); [|exact Hd|lia|lia]|].
      * intros x a Hx. apply HdivA; [exact Hx|exact Hv|exact Hnz].
      * intros d' Hd'. eapply mat_of_ext; [exact Hd'|]. intros i j _ _. cases.
  - intros d Hd. eapply mat_of_ext; [exact Hd|]. intros i j Hi Hj. cases.
Qed.

Lemma rref_clear_ok m n c g r p : mat_of R m n c g -> r < n -> p < c ->
  sret ab (rref_clear E m r p) (fun d => mat_of R d n c (fun i j =>
    if i =? r then g i j else fsub (g i j) (fmul (g i p) (g r j)))).
Proof.
  intros Hm Hr Hp. unfold rref_clear. destruct (mat_of_dims R m n c g Hm) as (Dr & Dc & _). rewrite Dr.
  set (u i j := fsub (g i j) (fmul (g i p) (g r j))).
  eapply sret_mono.
  - apply (sret_for ab (fun k d => mat_of R d n c (fun i j => if (i <? k) && negb (i =? r) then u i j else g i j)) n 0).
    + eapply mat_of_ext; [exact Hm|]. intros i j _ _. cases.
    + intros k d Hk Hd. destruct (Nat.eqb_spec k r) as [->|N].
      { apply sret_done. eapply mat_of_ext; [exact Hd|]. intros i j _ _. cases. }
      eapply sret_eval; [apply (entry_of ab R d n c _ k p Hd); lia|]. intros v Hv. cbn beta in Hv.
      rewrite Nat.ltb_irrefl in Hv. cbn [andb] in Hv.
      destruct (mat_of_dims R d n c _ Hd) as (_ & -> & _).
      eapply sret_mono.
      * apply (sret_for ab (fun l d => mat_of R d n c (fun i j =>
          if (i <? k) && negb (i =? r) then u i j else if (i =? k) && (j <? l) then u i j else g i j)) c 0).
        -- eapply mat_of_ext; [exact Hd|]. intros i j _ _. cases.
        -- intros l d' Hl Hd'.
           eapply (sret_eval ab d' _ _ (fun q => R q (fmul (g k p) (g r l)))).
           ++ eapply ret_bind; [apply (entry_of ab R d' n c _ r l Hd'); lia|]. intros a Ha. cbn beta in Ha.
              rewrite Nat.eqb_refl, andb_false_r in Ha. destruct (Nat.eqb_spec r k); [lia|]. cbn [andb] in Ha.
              apply Hmul; [exact Hv|exact Ha].
           ++ intros q Hq. eapply sret_mono; [eapply (assign_of _ fsub); [|exact Hd'|lia|lia]|].
              ** intros x a Hx. apply HsubA; [exact Hx|exact Hq].
              ** intros d'' Hd''. eapply mat_of_ext; [exact Hd''|]. intros i j _ _. unfold u. cases.
      * intros d' Hd'. eapply mat_of_ext; [exact Hd'|]. intros i j _ Hj. cases.
  - intros d Hd. eapply mat_of_ext; [exact Hd|]. intros i j Hi Hj. unfold u. cases.
Qed.
End Elim.
