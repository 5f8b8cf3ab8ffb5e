(** Proofs about the memory behind Mat (HeapModel.v). *)
From Coq Require Import Ascii.
From Verif Require Import Base IntModel IOModel ElemModel ElemSpec ElemProofs VecModel MatModel HeapModel HeapSpec.
Local Open Scope list_scope.
Local Open Scope nat_scope.

(** *** Lists with holes *)
Lemma live_app {A} (l : list (option A)) a k : live (l ++ [a]) k = if k =? length l then a else live l k.
Proof.
  unfold live. destruct (Nat.eqb_spec k (length l)) as [->|N]; [rewrite nth_error_app2, Nat.sub_diag by lia; reflexivity|].
  destruct (Nat.lt_ge_cases k (length l)); [rewrite nth_error_app1 by lia; reflexivity|].
  rewrite (proj2 (nth_error_None (l ++ [a]) k)), (proj2 (nth_error_None l k)) by (rewrite ?app_length; cbn; lia). reflexivity.
Qed.
Lemma live_lt {A} (l : list (option A)) k a : live l k = Some a -> k < length l.
Proof. unfold live. intros H. apply nth_error_Some. destruct (nth_error l k); discriminate. Qed.
Lemma live_end {A} (l : list (option A)) : live l (length l) = None.
Proof. unfold live. rewrite (proj2 (nth_error_None l (length l))) by lia. reflexivity. Qed.
Lemma live_replace {A} (l : list (option A)) j a k : j < length l -> live (replace l j a) k = if k =? j then a else live l k.
Proof.
  unfold live. revert j k. induction l as [|b l IH]; intros j k H; [cbn in H; lia|]. destruct j as [|j]; destruct k as [|k]; cbn; try reflexivity.
  apply IH. cbn in H. lia.
Qed.
Lemma replace_len {A} (l : list A) j a : length (replace l j a) = length l.
Proof. revert j. induction l; intros [|j]; cbn; auto. Qed.

Section Heap.
Context {T : Type} (E : ops T).
Local Notation mem := (memory T).
Local Notation env := (nat -> option (Mat T)).
(** *** Programs over values *)
Definition fresh_name (G : env) (x : nat) : Prop := G x = None.
(** state of the memory: owned, with the values G *)
Definition holds (s : mem) (G : env) : Prop := owned s /\ forall x, value s x = G x.
Lemma holds_ext s G H : holds s G -> (forall x, G x = H x) -> holds s H.
Proof. intros [O V] X. split; [exact O|]. intros x. rewrite V. apply X. Qed.

Lemma obj_value (s : mem) x m : owned s -> value s x = Some m -> exists o, live (objs s) x = Some o /\ live (arrays s) (odata o) = Some (data m) /\ orows o = rows m /\ ocols o = cols m.
Proof.
  intros O. unfold value. destruct (live (objs s) x) as [o|]; [|discriminate]. destruct (live (arrays s) (odata o)) as [a|] eqn:Ea; [|discriminate].
  intros H. injection H as <-. exists o. auto.
Qed.
Lemma no_value (s : mem) x : owned s -> value s x = None -> live (objs s) x = None.
Proof.
  intros (L & _) H. unfold value in H. destruct (live (objs s) x) as [o|] eqn:Eo; [|reflexivity]. destruct (live (arrays s) (odata o)) eqn:Ea; [discriminate|].
  exfalso. exact (L x o Eo Ea).
Qed.
Lemma new_ok s G r c : holds s G -> exists s' x, hrun E (New r c) s = (s', Ok x) /\ G x = None /\ holds s' (upd G x (Some (Mat_new E r c))).
Proof.
  intros [O V]. pose proof O as (L & I & N). cbn [hrun new_array arrays objs]. eexists _, _. split; [reflexivity|].
  assert (X : G (length (objs s)) = None) by (rewrite <- V; unfold value; rewrite live_end; reflexivity). split; [exact X|].
  assert (Fr : forall x o, live (objs s) x = Some o -> odata o <> length (arrays s)).
  { intros x o H K. apply (L x o H). rewrite K. apply live_end. }
  split.
  - unfold owned. cbn [arrays objs]. split; [|split].
    + intros x o. rewrite !live_app. destruct (Nat.eqb_spec x (length (objs s))) as [->|].
      * intros H. injection H as <-. cbn [odata]. rewrite Nat.eqb_refl. discriminate.
      * intros H. destruct (Nat.eqb_spec (odata o) (length (arrays s))); [discriminate|]. apply (L x o H).
    + intros x y o o'. rewrite !live_app. destruct (Nat.eqb_spec x (length (objs s))) as [->|], (Nat.eqb_spec y (length (objs s))) as [->|]; intros H H' Ed; auto.
      * injection H as <-. cbn in Ed. symmetry in Ed. destruct (Fr y o' H' Ed).
      * injection H' as <-. cbn in Ed. destruct (Fr x o H Ed).
      * eapply I; eassumption.
    + intros p a. rewrite live_app. destruct (Nat.eqb_spec p (length (arrays s))) as [->|].
      * intros _. exists (length (objs s)), (mkObj r c (length (arrays s))). rewrite live_app, Nat.eqb_refl. auto.
      * intros H. destruct (N p a H) as (x & o & Ho & Ed). exists x, o. split; [|exact Ed]. rewrite live_app.
        destruct (Nat.eqb_spec x (length (objs s))) as [->|]; [rewrite live_end in Ho; discriminate|exact Ho].
  - intros x. unfold value, upd. cbn [arrays objs]. rewrite live_app. destruct (Nat.eqb_spec x (length (objs s))) as [->|].
    + cbn [odata orows ocols]. rewrite live_app, Nat.eqb_refl. reflexivity.
    + rewrite <- V. unfold value. destruct (live (objs s) x) as [o|] eqn:Eo; [|reflexivity]. rewrite live_app.
      destruct (Nat.eqb_spec (odata o) (length (arrays s))) as [K|]; [destruct (Fr x o Eo K)|reflexivity].
Qed.
Lemma destroy_ok (s : mem) G x m : holds s G -> G x = Some m -> exists s', destroy s x = (s', Ok tt) /\ holds s' (upd G x None).
Proof.
  intros [O V] H. rewrite <- V in H. destruct (obj_value s x m O H) as (o & Eo & Ea & _). unfold destroy. rewrite Eo, Ea. eexists. split; [reflexivity|].
  pose proof O as (L & I & N). pose proof (live_lt _ _ _ Eo) as Lo. pose proof (live_lt _ _ _ Ea) as La.
  split.
  - unfold owned. cbn [arrays objs]. split; [|split].
    + intros y o'. rewrite !live_replace by assumption. destruct (Nat.eqb_spec y x); [discriminate|]. intros Hy. destruct (Nat.eqb_spec (odata o') (odata o)) as [K|]; [|apply (L y o' Hy)].
      exfalso. apply n. eapply I; eassumption.
    + intros y z o1 o2. rewrite !live_replace by assumption. destruct (Nat.eqb_spec y x), (Nat.eqb_spec z x); try discriminate. apply I.
    + intros p a. rewrite live_replace by assumption. destruct (Nat.eqb_spec p (odata o)); [discriminate|]. intros Hp. destruct (N p a Hp) as (y & o' & Ho & Ed).
      exists y, o'. split; [|exact Ed]. rewrite live_replace by assumption. destruct (Nat.eqb_spec y x) as [->|]; [|exact Ho]. rewrite Eo in Ho. injection Ho as <-. congruence.
  - intros y. unfold value, upd. cbn [arrays objs]. rewrite live_replace by assumption. destruct (Nat.eqb_spec y x) as [->|]; [reflexivity|]. rewrite <- V. unfold value.
    destruct (live (objs s) y) as [o'|] eqn:Ey; [|reflexivity]. rewrite live_replace by assumption. destruct (Nat.eqb_spec (odata o') (odata o)) as [K|]; [|reflexivity].
    exfalso. apply n. eapply I; eassumption.
Qed.
Lemma load_ok (s : mem) G x m k k' : holds s G -> G x = Some m -> (forall o, ocols o = cols m -> k o = k') -> load s x k = read (data m) k'.
Proof. intros [O V] H K. rewrite <- V in H. destruct (obj_value s x m O H) as (o & Eo & Ea & Er & Ec). unfold load. rewrite Eo, Ea, (K o Ec). reflexivity. Qed.
Lemma store_ok s G x m i j v : holds s G -> G x = Some m -> match set_entry m i j v with
  | (m', Ok _) => exists s', hrun E (Set_ x i j v) s = (s', Ok tt) /\ holds s' (upd G x (Some m'))
  | (_, _) => hrun E (Set_ x i j v) s = (s, UB)
  end.
Proof.
  intros [O V] H. pose proof H as Gx. rewrite <- V in H. destruct (obj_value s x m O H) as (o & Eo & Ea & Er & Ec). cbn [hrun]. unfold store, set_entry, offset. rewrite Eo, Ea, Ec.
  destruct (_ <? _) eqn:Lt; cbn [done]; [|reflexivity]. eexists. split; [reflexivity|].
  pose proof O as (L & I & N). pose proof (live_lt _ _ _ Ea) as La.
  split.
  - unfold owned. cbn [arrays objs]. split; [|split].
    + intros y o' Hy. rewrite live_replace by assumption. destruct (Nat.eqb_spec (odata o') (odata o)); [discriminate|apply (L y o' Hy)].
    + exact I.
    + intros p a. rewrite live_replace by assumption. destruct (Nat.eqb_spec p (odata o)) as [->|]; [|apply N]. intros _. eauto.
  - intros y. unfold value, upd. cbn [arrays objs]. destruct (Nat.eqb_spec y x) as [->|].
    + rewrite Eo, live_replace, Nat.eqb_refl by assumption. rewrite Er, Ec. reflexivity.
    + rewrite <- V. unfold value. destruct (live (objs s) y) as [o'|] eqn:Ey; [|reflexivity]. rewrite live_replace by assumption.
      destruct (Nat.eqb_spec (odata o') (odata o)) as [K|]; [|reflexivity]. exfalso. apply n. eapply I; eassumption.
Qed.
Lemma dims_ok s G x m : holds s G -> G x = Some m -> hrun E (Dims x) s = (s, Ok (rows m, cols m)).
Proof. intros [O V] H. rewrite <- V in H. destruct (obj_value s x m O H) as (o & Eo & Ea & Er & Ec). cbn [hrun]. rewrite Eo, Er, Ec. reflexivity. Qed.
Lemma swap_ok s G x y m n : holds s G -> G x = Some m -> G y = Some n -> exists s', hrun E (Swap x y) s = (s', Ok tt) /\ holds s' (upd (upd G x (Some n)) y (Some m)).
Proof.
  intros [O V] Hx Hy. rewrite <- V in Hx, Hy. destruct (obj_value s x m O Hx) as (o & Eo & Ea & Er & Ec). destruct (obj_value s y n O Hy) as (o' & Eo' & Ea' & Er' & Ec').
  cbn [hrun]. rewrite Eo, Eo'. eexists. split; [reflexivity|]. pose proof O as (L & I & N). pose proof (live_lt _ _ _ Eo) as Lx. pose proof (live_lt _ _ _ Eo') as Ly.
  assert (R : forall z, live (replace (replace (objs s) x (Some o')) y (Some o)) z = if z =? y then Some o else if z =? x then Some o' else live (objs s) z).
  { intros z. rewrite !live_replace by (rewrite ?replace_len; assumption). reflexivity. }
  (* the object that now holds what z held *)
  pose (f := fun z => if z =? y then x else if z =? x then y else z).
  assert (F : forall z, live (replace (replace (objs s) x (Some o')) y (Some o)) z = live (objs s) (f z)).
  { intros z. rewrite R. unfold f. destruct (Nat.eqb_spec z y); [congruence|]. destruct (Nat.eqb_spec z x); congruence. }
  assert (FF : forall z, f (f z) = z).
  { intros z. unfold f. destruct (Nat.eqb_spec z y) as [->|]; [destruct (Nat.eqb_spec x y), (Nat.eqb_spec x x); congruence|].
    destruct (Nat.eqb_spec z x) as [->|]; [rewrite Nat.eqb_refl; reflexivity|]. destruct (Nat.eqb_spec z y), (Nat.eqb_spec z x); congruence. }
  split.
  - unfold owned. cbn [arrays objs]. split; [|split].
    + intros z o1. rewrite F. apply L.
    + intros z w o1 o2. rewrite !F. intros H1 H2 Ed. rewrite <- (FF z), <- (FF w). f_equal. eapply I; eassumption.
    + intros p a Hp. destruct (N p a Hp) as (z & o1 & Hz & Ed). exists (f z), o1. rewrite F, FF. auto.
  - intros z. unfold value, upd. cbn [arrays objs]. rewrite R. destruct (Nat.eqb_spec z y); [rewrite Ea, Er, Ec; destruct m; reflexivity|].
    destruct (Nat.eqb_spec z x); [rewrite Ea', Er', Ec'; destruct n; reflexivity|]. apply V.
Qed.

(** *** What a program does to the values *)
Definition same (G H : env) : Prop := forall x, G x = H x.
Definition acts {A B} (G : env) (p : prog T A) (m : res B) (Q : B -> A -> env -> Prop) (Qt : env -> Prop) : Prop :=
  forall s, holds s G -> match m with
  | Ok b => exists s' a H, hrun E p s = (s', Ok a) /\ holds s' H /\ Q b a H
  | Throw e => exists s' H, hrun E p s = (s', Throw e) /\ holds s' H /\ Qt H
  | Abort => snd (hrun E p s) = Abort
  | UB => snd (hrun E p s) = UB
  | OutOfFuel => snd (hrun E p s) = OutOfFuel
  end.
Lemma acts_weaken {A B} G p (m : res B) (Q Q' : B -> A -> env -> Prop) (Qt Qt' : env -> Prop) : acts G p m Q Qt ->
  (forall b a H, m = Ok b -> Q b a H -> Q' b a H) -> (forall e H, m = Throw e -> Qt H -> Qt' H) -> acts G p m Q' Qt'.
Proof.
  intros P K Kt s Hs. specialize (P s Hs). destruct m as [b|e| | |]; auto.
  - destruct P as (s' & a & H & R & Ho & q). exists s', a, H. eauto 6.
  - destruct P as (s' & H & R & Ho & q). exists s', H. eauto 6.
Qed.
Lemma acts_bind {A B C D} G (p : prog T A) (k : A -> prog T B) (m : res C) (n : C -> res D) Q R Qt : acts G p m Q Qt ->
  (forall c a H, m = Ok c -> Q c a H -> acts H (k a) (n c) R Qt) -> acts G (Bind p k) (c <- m ;; n c) R Qt.
Proof.
  intros P K s Hs. specialize (P s Hs). cbn [hrun]. destruct m as [c|e| | |]; cbn [bind].
  - destruct P as (s' & a & H & -> & Ho & q). apply (K c a H eq_refl q s' Ho).
  - destruct P as (s' & H & -> & Ho & q). exists s', H. auto.
  - destruct (hrun E p s) as [s' r]; cbn in P; subst r. reflexivity.
  - destruct (hrun E p s) as [s' r]; cbn in P; subst r. reflexivity.
  - destruct (hrun E p s) as [s' r]; cbn in P; subst r. reflexivity.
Qed.
Lemma acts_ret {A B} G (m : res A) (n : res B) (Q : B -> A -> env -> Prop) (Qt : env -> Prop) :
  match n with Ok b => exists a, m = Ok a /\ forall H, same H G -> Q b a H | Throw e => m = Throw e /\ forall H, same H G -> Qt H | Abort => m = Abort | UB => m = UB | OutOfFuel => m = OutOfFuel end ->
  acts G (Ret m) n Q Qt.
Proof.
  intros P s Hs. cbn [hrun snd]. destruct n as [b|e| | |]; auto.
  - destruct P as (a & -> & P). exists s, a, G. split; [reflexivity|]. split; [exact Hs|]. apply P. intros x. reflexivity.
  - destruct P as (-> & P). exists s, G. split; [reflexivity|]. split; [exact Hs|]. apply P. intros x. reflexivity.
Qed.
Lemma acts_same {A B} G H (p : prog T A) (m : res B) Q Qt : same G H -> acts G p m Q Qt -> acts H p m Q Qt.
Proof. intros X P s Hs. apply P. eapply holds_ext; [exact Hs|]. intros x. symmetry. apply X. Qed.
Lemma acts_scope {A B} G x (p : prog T A) (m : res B) Q Qt : acts G p m (fun b a H => H x <> None /\ Q b a (upd H x None)) (fun H => H x <> None /\ Qt (upd H x None)) ->
  acts G (Scope x false p) m Q Qt.
Proof.
  intros P s Hs. specialize (P s Hs). cbn [hrun]. destruct m as [b|e| | |].
  - destruct P as (s' & a & H & -> & Ho & L & q). destruct (H x) as [v|] eqn:Ex; [|congruence]. destruct (destroy_ok s' H x v Ho Ex) as (s2 & -> & H2). exists s2, a, (upd H x None). auto.
  - destruct P as (s' & H & -> & Ho & L & q). destruct (H x) as [v|] eqn:Ex; [|congruence]. destruct (destroy_ok s' H x v Ho Ex) as (s2 & -> & H2). exists s2, (upd H x None). auto.
  - destruct (hrun E p s) as [s' r]; cbn in P; subst r. reflexivity.
  - destruct (hrun E p s) as [s' r]; cbn in P; subst r. reflexivity.
  - destruct (hrun E p s) as [s' r]; cbn in P; subst r. reflexivity.
Qed.
Lemma acts_keep {A B} G x (p : prog T A) (m : res B) Q Qt : acts G p m Q (fun H => H x <> None /\ Qt (upd H x None)) -> acts G (Scope x true p) m Q Qt.
Proof.
  intros P s Hs. specialize (P s Hs). cbn [hrun]. destruct m as [b|e| | |].
  - destruct P as (s' & a & H & -> & Ho & q). exists s', a, H. auto.
  - destruct P as (s' & H & -> & Ho & L & q). destruct (H x) as [v|] eqn:Ex; [|congruence]. destruct (destroy_ok s' H x v Ho Ex) as (s2 & -> & H2). exists s2, (upd H x None). auto.
  - destruct (hrun E p s) as [s' r]; cbn in P; subst r. reflexivity.
  - destruct (hrun E p s) as [s' r]; cbn in P; subst r. reflexivity.
  - destruct (hrun E p s) as [s' r]; cbn in P; subst r. reflexivity.
Qed.

(** an expression: no object changes *)
Definition expr {A} (G : env) (p : prog T A) (m : res A) : Prop := acts G p m (fun b a H => a = b /\ same H G) (fun H => same H G).
(** a statement on the object x, which holds v before and [fst o] after it *)
Definition stmt (G : env) (x : nat) (v : Mat T) (p : prog T unit) (o : outcome (Mat T)) : Prop :=
  acts (upd G x (Some v)) p (snd o) (fun _ _ H => same H (upd G x (Some (fst o)))) (fun H => same H (upd G x (Some (fst o)))).
(** a function that returns a Mat by value *)
Definition makes (G : env) (p : prog T nat) (m : res (Mat T)) : Prop :=
  acts G p m (fun v x H => G x = None /\ same H (upd G x (Some v))) (fun H => same H G).

Lemma same_refl G : same G G. Proof. intros x. reflexivity. Qed.
Lemma same_trans G H K : same G H -> same H K -> same G K. Proof. intros X Y x. rewrite X. apply Y. Qed.
Lemma same_upd G H x v : same G H -> same (upd G x v) (upd H x v). Proof. intros X y. unfold upd. destruct (y =? x); auto. Qed.
Lemma upd_upd G x v w : same (upd (upd G x v) x w) (upd G x w). Proof. intros y. unfold upd. destruct (y =? x); reflexivity. Qed.
Lemma upd_id G x v : G x = v -> same (upd G x v) G. Proof. intros H y. unfold upd. destruct (Nat.eqb_spec y x) as [->|]; auto. Qed.
Lemma upd_same (G : env) x v : upd G x v x = v. Proof. unfold upd. rewrite Nat.eqb_refl. reflexivity. Qed.
Lemma upd_other (G : env) x y v : y <> x -> upd G x v y = G y. Proof. intros H. unfold upd. destruct (Nat.eqb_spec y x); [contradiction|reflexivity]. Qed.
Lemma upd_swap G x y v w : x <> y -> same (upd (upd G x v) y w) (upd (upd G y w) x v).
Proof. intros N z. unfold upd. destruct (Nat.eqb_spec z x) , (Nat.eqb_spec z y); congruence. Qed.
Lemma apart (G : env) x y v : G x = None -> G y = Some v -> y <> x. Proof. intros H K ->. congruence. Qed.

Lemma expr_same {A} G H (p : prog T A) m : same G H -> expr G p m -> expr H p m.
Proof.
  intros X P. unfold expr. eapply acts_weaken; [apply (acts_same G H _ _ _ _ X), P| |]; cbn beta; intros.
  - destruct H2. split; [assumption|]. eapply same_trans; eauto.
  - eapply same_trans; eauto.
Qed.
Lemma expr_ret {A} G (m : res A) : expr G (Ret m) m.
Proof. apply acts_ret. destruct m; eauto. Qed.
Lemma expr_bind {A B} G (p : prog T A) (k : A -> prog T B) m n : expr G p m -> (forall a, m = Ok a -> expr G (k a) (n a)) -> expr G (Bind p k) (a <- m ;; n a).
Proof.
  intros P K. unfold expr. eapply acts_bind.
  - eapply acts_weaken; [exact P| |]; cbn beta; intros; eauto. exact H1.
  - cbn beta. intros c a H Em [-> X]. eapply acts_weaken; [apply (acts_same G H); [intros y; symmetry; apply X|exact (K c Em)]| |]; cbn beta; auto.
Qed.
Lemma expr_eq {A} G (p : prog T A) m n : expr G p m -> m = n -> expr G p n.
Proof. intros P <-. exact P. Qed.
Lemma expr_get G x v i j : G x = Some v -> expr G (Get x i j) (entry v i j).
Proof.
  intros X s Hs. cbn [hrun snd]. rewrite (load_ok s G x v _ (offset v i j) Hs X) by (intros o ->; reflexivity). unfold entry.
  destruct (read (data v) (offset v i j)) as [a|e| | |]; auto; [exists s, a, G|exists s, G]; auto using same_refl.
Qed.
Lemma expr_data G x v k : G x = Some v -> expr G (Data x k) (read (data v) k).
Proof.
  intros X s Hs. cbn [hrun snd]. rewrite (load_ok s G x v _ k Hs X) by reflexivity.
  destruct (read (data v) k) as [a|e| | |]; auto; [exists s, a, G|exists s, G]; auto using same_refl.
Qed.
Lemma expr_dims G x v : G x = Some v -> expr G (Dims x) (Ok (rows v, cols v)).
Proof. intros X s Hs. rewrite (dims_ok s G x v Hs X). exists s, (rows v, cols v), G. auto using same_refl. Qed.
(** what follows a look at the dimensions *)
Lemma acts_dims {A B} G x v (k : nat * nat -> prog T A) (m : res B) Q Qt : G x = Some v -> acts G (k (rows v, cols v)) m Q Qt -> acts G (Bind (Dims x) k) m Q Qt.
Proof. intros X P s Hs. cbn [hrun]. pose proof (dims_ok s G x v Hs X) as R. cbn [hrun] in R. injection R as R. rewrite R. exact (P s Hs). Qed.
(** an expression first, then anything *)
Lemma acts_expr {A B C} G (p : prog T A) (k : A -> prog T B) m (n : A -> res C) Q (Qt : env -> Prop) : expr G p m -> (forall H, same H G -> Qt H) -> (forall a, m = Ok a -> acts G (k a) (n a) Q Qt) ->
  acts G (Bind p k) (a <- m ;; n a) Q Qt.
Proof.
  intros P Kt K. eapply acts_bind.
  - eapply acts_weaken; [exact P| |]; cbn beta; intros; eauto. exact H1.
  - cbn beta. intros c a H Em [-> X]. apply (acts_same G H); [intros y; symmetry; apply X|exact (K c Em)].
Qed.
Lemma expr_fold {S} G (body : nat -> S -> prog T S) (f : nat -> S -> outcome S) : (forall i w, expr G (body i w) (final (f i w))) ->
  forall n a w, expr G (pfold n a body w) (final (for_ n a f w)).
Proof.
  intros P. induction n as [|n IH]; intros a w; cbn [pfold for_]; [apply expr_ret|].
  eapply expr_eq; [apply expr_bind; [apply P|intros b _; apply IH]|]. cbv [final andthen]. destruct (f a w) as [w' [[]|e| | |]]; reflexivity.
Qed.
Lemma expr_all G (p : nat -> prog T bool) q : (forall i, expr G (p i) (q i)) -> forall n a, expr G (pall n a p) (all_ n a q).
Proof.
  intros P. induction n as [|n IH]; intros a; cbn [pall all_]; [apply expr_ret|]. apply expr_bind; [apply P|]. intros [] _; [apply IH|apply expr_ret].
Qed.

Lemma stmt_done G x v : stmt G x v (Ret (Ok tt)) (done v).
Proof. apply acts_ret. cbn [snd done]. exists tt. auto. Qed.
Lemma stmt_throw G x v e : stmt G x v (Ret (Throw e)) (v, Throw e).
Proof. apply acts_ret. cbn [snd]. auto. Qed.
Lemma stmt_set G x v i j a : stmt G x v (Set_ x i j a) (set_entry v i j a).
Proof.
  intros s Hs. pose proof (store_ok s (upd G x (Some v)) x v i j a Hs (upd_same G x _)) as P. unfold set_entry in *. destruct (_ <? _); cbn [snd fst done] in *.
  - destruct P as (s' & R & H). exists s', tt, (upd (upd G x (Some v)) x (Some (mkMat (rows v) (cols v) (replace (data v) (offset v i j) (Some a))))). split; [exact R|]. split; [exact H|]. apply upd_upd.
  - rewrite P. reflexivity.
Qed.
Lemma stmt_eval {A} G x v (p : prog T A) (k : A -> prog T unit) m f : expr (upd G x (Some v)) p m -> (forall a, m = Ok a -> stmt G x v (k a) (f a)) -> stmt G x v (Bind p k) (eval v m f).
Proof.
  intros P K s Hs. specialize (P s Hs). cbn [hrun]. destruct m as [a|e| | |]; cbn [eval fst snd].
  - destruct P as (s' & a' & H & -> & Ho & -> & X). apply (K a eq_refl s'). exact (holds_ext _ _ _ Ho X).
  - destruct P as (s' & H & -> & Ho & X). exists s', H. auto.
  - destruct (hrun E p s) as [s' r]; cbn in P; subst r. reflexivity.
  - destruct (hrun E p s) as [s' r]; cbn in P; subst r. reflexivity.
  - destruct (hrun E p s) as [s' r]; cbn in P; subst r. reflexivity.
Qed.
Lemma stmt_then G x v (p q : prog T unit) o f : stmt G x v p o -> stmt G x (fst o) q (f (fst o)) -> stmt G x v (Bind p (fun _ => q)) (andthen o f).
Proof.
  intros P K s Hs. specialize (P s Hs). cbn [hrun]. destruct o as [w [[]|e| | |]]; cbn [andthen fst snd] in *.
  - destruct P as (s' & [] & H & -> & Ho & X). apply (K s'). exact (holds_ext _ _ _ Ho X).
  - destruct P as (s' & H & -> & Ho & X). exists s', H. auto.
  - destruct (hrun E p s) as [s' r]; cbn in P; subst r. reflexivity.
  - destruct (hrun E p s) as [s' r]; cbn in P; subst r. reflexivity.
  - destruct (hrun E p s) as [s' r]; cbn in P; subst r. reflexivity.
Qed.
Lemma stmt_for G x body f : (forall i w, stmt G x w (body i) (f i w)) -> forall n a v, stmt G x v (pfor n a body) (for_ n a f v).
Proof.
  intros P. induction n as [|n IH]; intros a v; cbn [pfor for_]; [apply stmt_done|]. apply stmt_then; [apply P|apply IH].
Qed.
Lemma stmt_for2 G x body f : (forall i j w, stmt G x w (body i j) (f i j w)) -> forall r c v, stmt G x v (pfor2 r c body) (for2 r c f v).
Proof. intros P r c v. apply stmt_for. intros i w. apply stmt_for. intros j u. apply P. Qed.
Lemma stmt_fill G x body f : (forall i j w, expr (upd G x (Some w)) (body i j) (f i j)) -> forall r c v, stmt G x v (pfill x r c body) (fill r c f v).
Proof. intros P r c v. apply stmt_for2. intros i j w. apply stmt_eval; [apply P|]. intros a _. apply stmt_set. Qed.
Lemma stmt_dims G x v y w (k : nat * nat -> prog T unit) o : upd G x (Some v) y = Some w -> stmt G x v (k (rows w, cols w)) o -> stmt G x v (Bind (Dims y) k) o.
Proof. intros Y P. exact (acts_dims _ y w k _ _ _ Y P). Qed.
Lemma stmt_assign_entry G x v op i j y : stmt G x v (h_assign_entry op x i j y) (assign_entry op v i j y).
Proof.
  unfold h_assign_entry, assign_entry. replace (eval v (a <- entry v i j ;; op a y) _) with (eval v (entry v i j) (fun a => eval v (op a y) (fun z => set_entry v i j z))) by (destruct (entry v i j); reflexivity).
  apply stmt_eval; [apply expr_get, upd_same|]. intros a _. apply stmt_eval; [apply expr_ret|]. intros b _. apply stmt_set.
Qed.

(** *** Objects that are made *)
Lemma acts_new {A B} G r c (k : nat -> prog T A) (m : res B) Q Qt : (forall x, G x = None -> acts (upd G x (Some (Mat_new E r c))) (k x) m Q Qt) -> acts G (Bind (New r c) k) m Q Qt.
Proof.
  intros P s Hs. cbn [hrun]. destruct (new_ok s G r c Hs) as (s' & x & R & Gx & Hn). cbn [hrun] in R. rewrite R. exact (P x Gx s' Hn).
Qed.
(** a local object that becomes the result *)
Lemma acts_result G x v body (o : outcome (Mat T)) (Qt : env -> Prop) : G x = None -> stmt G x v body o -> (forall H, same H (upd G x (Some (fst o))) -> (exists e, snd o = Throw e) -> Qt H) ->
  acts (upd G x (Some v)) (Bind body (fun _ => Ret (Ok x))) (final o) (fun w y H => G y = None /\ same H (upd G y (Some w))) Qt.
Proof.
  intros Gx P Kt s Hs. specialize (P s Hs). cbn [hrun]. destruct o as [w [[]|e| | |]]; cbv [final bind fst snd] in *.
  - destruct P as (s' & [] & H & -> & Ho & X). exists s', x, H. auto.
  - destruct P as (s' & H & -> & Ho & X). exists s', H. split; [reflexivity|]. split; [exact Ho|]. eauto.
  - destruct (hrun E body s) as [s' r]; cbn in P; subst r. reflexivity.
  - destruct (hrun E body s) as [s' r]; cbn in P; subst r. reflexivity.
  - destruct (hrun E body s) as [s' r]; cbn in P; subst r. reflexivity.
Qed.
Lemma makes_keep G x v body o : G x = None -> stmt G x v body o -> acts (upd G x (Some v)) (Scope x true (_ <~ body ;; Ret (Ok x))) (final o) (fun w y H => G y = None /\ same H (upd G y (Some w))) (fun H => same H G).
Proof.
  intros Gx P. apply acts_keep. apply (acts_result G x v body o _ Gx P). intros H X _. split; [rewrite X, upd_same; discriminate|].
  intros y. rewrite (same_upd _ _ x None X), (upd_upd G x _ None). apply upd_id. exact Gx.
Qed.
Lemma makes_returning G r c body o : (forall x, G x = None -> stmt G x (Mat_new E r c) (body x) o) -> makes G (returning r c body) (final o).
Proof. intros P. apply acts_new. intros x Gx. apply makes_keep; auto. Qed.
Lemma makes_ctor G r c body o : (forall x, G x = None -> stmt G x (Mat_new E r c) (body x) o) -> (forall e, snd o <> Throw e) -> makes G (x <~ New r c ;; _ <~ body x ;; Ret (Ok x)) (final o).
Proof.
  intros P N. apply acts_new. intros x Gx. apply acts_result; auto. intros H _ [e K]. destruct (N e K).
Qed.
Lemma makes_then G (f : prog T nat) (m : res (Mat T)) body (o : Mat T -> outcome (Mat T)) : makes G f m -> (forall x v, m = Ok v -> G x = None -> stmt G x v (body x) (o v)) ->
  makes G (x <~ f ;; Scope x true (_ <~ body x ;; Ret (Ok x))) (v <- m ;; final (o v)).
Proof.
  intros P K. eapply acts_bind; [exact P|]. cbn beta. intros v x H Em [Gx X]. apply (acts_same (upd G x (Some v))); [intros y; symmetry; apply X|]. apply makes_keep; auto.
Qed.
(** a local object *)
Lemma acts_local {A B} G f (m : res (Mat T)) (body : nat -> prog T A) (n : Mat T -> res B) Q (Qt : env -> Prop) : makes G f m -> (forall H, same H G -> Qt H) ->
  (forall x v, m = Ok v -> G x = None -> acts (upd G x (Some v)) (body x) (n v) (fun b a H => H x <> None /\ Q b a (upd H x None)) (fun H => H x <> None /\ Qt (upd H x None))) ->
  acts G (local f body) (v <- m ;; n v) Q Qt.
Proof.
  intros P Kt K. eapply acts_bind.
  - eapply acts_weaken; [exact P| |]; cbn beta; intros; eauto. exact H1.
  - cbn beta. intros v x H Em [Gx X]. apply (acts_same (upd G x (Some v))); [intros y; symmetry; apply X|]. apply acts_scope. apply K; auto.
Qed.
Lemma back G x v H : G x = None -> same H (upd G x v) -> same (upd H x None) G.
Proof. intros Gx X y. rewrite (same_upd _ _ x None X), (upd_upd G x _ None). apply upd_id. exact Gx. Qed.
Lemma expr_local {A} G f m (body : nat -> prog T A) n : makes G f m -> (forall x v, m = Ok v -> G x = None -> expr (upd G x (Some v)) (body x) (n v)) -> expr G (local f body) (v <- m ;; n v).
Proof.
  intros P K. apply acts_local; [exact P|auto|]. intros x v Em Gx. eapply acts_weaken; [apply (K x v Em Gx)| |]; cbn beta.
  - intros b a H _ [-> X]. split; [rewrite X, upd_same; discriminate|]. split; [reflexivity|]. eapply back; eassumption.
  - intros e H _ X. split; [rewrite X, upd_same; discriminate|]. eapply back; eassumption.
Qed.
Lemma makes_eq G p m n : makes G p m -> m = n -> makes G p n.
Proof. intros P <-. exact P. Qed.
Lemma makes_dims G x v k m : G x = Some v -> makes G (k (rows v, cols v)) m -> makes G (Bind (Dims x) k) m.
Proof. intros X P. exact (acts_dims G x v k m _ _ X P). Qed.
Lemma expr_dims_then {A} G x v (k : nat * nat -> prog T A) m : G x = Some v -> expr G (k (rows v, cols v)) m -> expr G (Bind (Dims x) k) m.
Proof. intros X P. exact (acts_dims G x v k m _ _ X P). Qed.
Lemma makes_throw G e : makes G (Ret (Throw e)) (Throw e).
Proof. apply acts_ret. auto. Qed.
Lemma makes_ub G : makes G (Ret UB) UB.
Proof. apply acts_ret. auto. Qed.

(** *** The functions of Mat.hpp *)
Ltac look := match goal with
  | |- upd _ ?x _ ?x = Some _ => apply upd_same
  | |- upd _ _ _ _ = Some _ => rewrite upd_other by (eauto using apart); look
  | |- _ => eassumption
  end.
Ltac cut_if := match goal with |- context [if ?b then _ else _] => destruct b eqn:? end.
Lemma for_no_throw {S} (f : nat -> S -> outcome S) : (forall i w e, snd (f i w) <> Throw e) -> forall n a w e, snd (for_ n a f w) <> Throw e.
Proof.
  intros P. induction n as [|n IH]; intros a w e; cbn [for_]; [discriminate|]. pose proof (P a w e) as K. destruct (f a w) as [w' [[]|e'| | |]]; cbn [andthen snd] in *; auto; discriminate.
Qed.
Lemma set_no_throw (v : Mat T) i j a e : snd (set_entry v i j a) <> Throw e.
Proof. unfold set_entry. destruct (_ <? _); discriminate. Qed.
Lemma fill_no_throw r c f (v : Mat T) e : (forall i j e, f i j <> Throw e) -> snd (fill r c f v) <> Throw e.
Proof.
  intros P. apply for_no_throw. intros i w e1. apply for_no_throw. intros j u e2. pose proof (P i j e2). destruct (f i j) as [a|e'| | |]; cbn [eval snd]; try discriminate; [apply set_no_throw|congruence].
Qed.
Lemma read_no_throw (l : list (option T)) k e : read l k <> Throw e.
Proof. unfold read. destruct (nth_error l k) as [[a|]|]; discriminate. Qed.

Lemma stmt_setEntries G x v src vals size : (forall k w, expr (upd G x (Some w)) (src k) (read vals k)) -> stmt G x v (h_setEntries x src size) (setEntries_ptr v vals size).
Proof.
  intros P. unfold h_setEntries, setEntries_ptr. eapply stmt_dims; [apply upd_same|]. cbv beta iota. destruct (size <? rows v * cols v); [apply stmt_throw|].
  apply stmt_fill. intros i j w. apply P.
Qed.
Lemma set_size (v : Mat T) vals e : snd (setEntries_ptr v vals (rows v * cols v)) <> Throw e.
Proof. unfold setEntries_ptr. rewrite Nat.ltb_irrefl. apply fill_no_throw. intros. apply read_no_throw. Qed.
Lemma makes_copy G a v : G a = Some v -> makes G (h_copy a) (Mat_copy E v).
Proof.
  intros Ga. unfold h_copy, Mat_copy. eapply makes_dims; [exact Ga|]. cbv beta iota.
  apply (makes_ctor G (rows v) (cols v) (fun y => h_setEntries y (Data a) (rows v * cols v))).
  - intros x Gx. apply stmt_setEntries. intros k w. apply expr_data. look.
  - intros e. exact (set_size (Mat_new E (rows v) (cols v)) (data v) e).
Qed.
Lemma makes_array G vals r c : makes G (h_array vals r c) (Mat_array E vals r c).
Proof.
  apply (makes_ctor G r c (fun y => h_setEntries y (fun k => Ret (read vals k)) (r * c))).
  - intros x Gx. apply stmt_setEntries. intros k w. apply expr_ret.
  - intros e. exact (set_size (Mat_new E r c) vals e).
Qed.
Lemma stmt_setEntries_val G x v a : stmt G x v (h_setEntries_val x a) (mat_setEntries_val v a).
Proof. unfold h_setEntries_val, mat_setEntries_val. eapply stmt_dims; [apply upd_same|]. cbv beta iota. apply stmt_fill. intros. apply expr_ret. Qed.
Lemma makes_val G r c a : makes G (h_val r c a) (Mat_val E r c a).
Proof.
  apply (makes_ctor G r c (fun y => h_setEntries_val y a)).
  - intros x Gx. apply stmt_setEntries_val.
  - intros e. apply fill_no_throw. discriminate.
Qed.
Lemma makes_map G f a v : G a = Some v -> makes G (h_map f a) (final (fill (rows v) (cols v) (fun i j => x <- entry v i j ;; f x) (Mat_new E (rows v) (cols v)))).
Proof.
  intros Ga. unfold h_map. eapply makes_dims; [exact Ga|]. cbv beta iota. apply makes_returning. intros x Gx. apply stmt_fill. intros i j w.
  apply expr_bind; [apply expr_get; look|]. intros b _. apply expr_ret.
Qed.
Lemma makes_binary G op a b v w : G a = Some v -> G b = Some w -> makes G (h_binary op a b) (mat_binary E op v w).
Proof.
  intros Ga Gb. unfold h_binary, mat_binary. eapply makes_dims; [exact Ga|]. cbv beta iota. eapply makes_dims; [exact Gb|]. cbv beta iota. unfold same_dims.
  destruct (negb _); [apply makes_throw|]. apply makes_returning. intros x Gx. apply stmt_fill. intros i j u.
  apply expr_bind; [apply expr_get; look|]. intros c _. apply expr_bind; [apply expr_get; look|]. intros d _. apply expr_ret.
Qed.
(** the operand of a compound assignment: the object itself, or another *)
Definition operand (G : env) (x b : nat) (w : option (Mat T)) : Prop := match w with Some u => b <> x /\ G b = Some u | None => b = x end.
Lemma operand_now G x b w v : operand G x b w -> upd G x (Some v) b = Some (rd v w).
Proof. destruct w as [u|]; cbn [operand rd]; [intros [N H]; rewrite upd_other; auto|intros ->; apply upd_same]. Qed.
Lemma stmt_mat_assign G op x b v w : operand G x b w -> stmt G x v (h_mat_assign op x b) (mat_assign op v w).
Proof.
  intros B. unfold h_mat_assign, mat_assign. eapply stmt_dims; [apply upd_same|]. cbv beta iota. eapply stmt_dims; [apply operand_now; exact B|]. cbv beta iota. unfold same_dims.
  destruct (negb _); [apply stmt_throw|]. apply stmt_for2. intros i j u. apply stmt_eval; [apply expr_get, operand_now, B|]. intros y _. apply stmt_assign_entry.
Qed.
Lemma stmt_scale_assign G op x v (s : mscalar) : stmt G x v (h_scale_assign op x s) (mat_scale_assign op v s).
Proof.
  unfold h_scale_assign, mat_scale_assign. eapply stmt_dims; [apply upd_same|]. cbv beta iota. apply stmt_for2. intros i j u. destruct s as [a|p q]; [apply stmt_assign_entry|].
  destruct (_ && _); [apply stmt_assign_entry|]. apply stmt_eval; [apply expr_get, upd_same|]. intros a _. apply stmt_assign_entry.
Qed.
Definition product_loops (a b r : Mat T) : outcome (Mat T) :=
  for_ (rows a) 0 (fun i => for_ (cols a) 0 (fun k => for_ (cols b) 0 (fun j d =>
    eval d (x <- entry a i k ;; y <- entry b k j ;; mul E x y) (fun p => assign_entry (addA E) d i j (Some p))))) r.
Lemma stmt_product_into G a b x va vb r : G x = None -> G a = Some va -> G b = Some vb -> stmt G x r (h_product_into E a b x (rows va) (cols va) (cols vb)) (product_loops va vb r).
Proof.
  intros Gx Ga Gb. apply stmt_for. intros i w1. apply stmt_for. intros k w2. apply stmt_for. intros j w.
  replace (eval w (y <- entry va i k ;; z <- entry vb k j ;; mul E y z) _) with
    (eval w (entry va i k) (fun y => eval w (entry vb k j) (fun z => eval w (mul E y z) (fun p => assign_entry (addA E) w i j (Some p)))))
    by (destruct (entry va i k); [|reflexivity..]; cbn; destruct (entry vb k j); reflexivity).
  apply stmt_eval; [apply expr_get; look|]. intros y _. apply stmt_eval; [apply expr_get; look|]. intros z _. apply stmt_eval; [apply expr_ret|]. intros p _. apply stmt_assign_entry.
Qed.
Lemma makes_product G a b va vb : G a = Some va -> G b = Some vb -> makes G (h_product E a b) (M_product E va vb).
Proof.
  intros Ga Gb. unfold h_product, M_product. eapply makes_dims; [exact Ga|]. cbv beta iota. eapply makes_dims; [exact Gb|]. cbv beta iota.
  destruct (negb _); [apply makes_throw|]. apply (makes_then G _ _ _ (product_loops va vb)); [apply makes_val|]. intros x v _ Gx. apply stmt_product_into; assumption.
Qed.
Lemma expr_eq_mat G a b va vb : G a = Some va -> G b = Some vb -> expr G (h_eq E a b) (M_eq E va vb).
Proof.
  intros Ga Gb. unfold h_eq, M_eq. eapply expr_dims_then; [exact Ga|]. cbv beta iota. eapply expr_dims_then; [exact Gb|]. cbv beta iota. unfold same_dims.
  destruct (negb _); [apply expr_ret|]. apply expr_all. intros i. apply expr_all. intros j.
  apply expr_bind; [apply expr_get; look|]. intros y _. apply expr_bind; [apply expr_get; look|]. intros z _. apply expr_ret.
Qed.
Lemma expr_ne_mat G a b va vb : G a = Some va -> G b = Some vb -> expr G (h_ne E a b) (M_ne E va vb).
Proof. intros Ga Gb. apply expr_bind; [apply expr_eq_mat; assumption|]. intros e _. apply expr_ret. Qed.
Lemma makes_first_minor G x v i j : G x = Some v -> makes G (h_first_minor x i j) (first_minor E v i j).
Proof.
  intros Gx. unfold h_first_minor, first_minor. eapply makes_dims; [exact Gx|]. cbv beta iota. destruct (_ || _); [apply makes_ub|].
  apply makes_returning. intros y Gy. apply stmt_fill. intros m n w. apply expr_get. look.
Qed.
Lemma makes_local G f m body (n : Mat T -> res (Mat T)) : makes G f m -> (forall x v, m = Ok v -> G x = None -> makes (upd G x (Some v)) (body x) (n v)) -> makes G (local f body) (v <- m ;; n v).
Proof.
  intros P K. apply acts_local; [exact P|auto|]. intros x v Em Gx. eapply acts_weaken; [apply (K x v Em Gx)| |]; cbn beta.
  - intros w y H _ [Gy X]. assert (N : y <> x) by (intros ->; rewrite upd_same in Gy; discriminate). rewrite upd_other in Gy by exact N.
    split; [rewrite X, upd_other, upd_same by auto; discriminate|]. split; [exact Gy|].
    intros z. rewrite (same_upd _ _ x None X). unfold upd. destruct (Nat.eqb_spec z x), (Nat.eqb_spec z y); congruence.
  - intros e H _ X. split; [rewrite X, upd_same; discriminate|]. eapply back; eassumption.
Qed.
Lemma makes_cofactor G x v i j : G x = Some v -> makes G (h_cofactor E x i j) (cofactor E v i j).
Proof.
  intros Gx. unfold h_cofactor, cofactor. destruct (_ =? 1).
  - apply makes_local; [apply makes_first_minor, Gx|]. intros y w _ Gy. apply makes_map, upd_same.
  - eapply makes_eq; [apply makes_first_minor, Gx|]. destruct (first_minor E v i j); reflexivity.
Qed.
Lemma expr_det2 G x v : G x = Some v -> expr G (h_det2 E x) (det2 E v).
Proof.
  intros Gx. unfold h_det2, det2. repeat (apply expr_bind; [first [apply expr_data; exact Gx|apply expr_ret]|intros ? _]). apply expr_ret.
Qed.
Lemma expr_expansion G (hrec : nat -> prog T T) (rec : Mat T -> res T) cs x v : (forall H y w, H y = Some w -> expr H (hrec y) (rec w)) -> G x = Some v ->
  expr G (h_expansion E hrec x cs) (expansion E rec v (if cs then cols v else rows v) (fun k => if cs then entry v 0 k else entry v k 0) (fun k => if cs then first_minor E v 0 k else first_minor E v k 0)).
Proof.
  intros R Gx. unfold h_expansion, expansion. eapply expr_dims_then; [exact Gx|]. cbv beta iota.
  destruct (negb _); [apply expr_ret|]. destruct (rows v =? 1); [apply expr_data, Gx|]. destruct (rows v =? 2); [apply expr_det2, Gx|].
  apply expr_fold. intros k result.
  eapply expr_eq; [apply expr_bind with (m := if cs then entry v 0 k else entry v k 0) (n := fun a => z <- eqb E a (of_int E 0) ;; if z : bool then Ok result else s <- (if cs then first_minor E v 0 k else first_minor E v k 0) ;; d <- rec s ;; p <- mul E a d ;; if k mod 2 =? 1 then subA E result (Some p) else addA E result (Some p)); [|intros a _; apply expr_bind; [apply expr_ret|intros z _]]|].
  - destruct cs; apply expr_get, Gx.
  - destruct z; [apply expr_ret|]. apply expr_local; [destruct cs; apply makes_first_minor, Gx|]. intros y w _ Gy. apply expr_bind; [apply R, upd_same|]. intros d _. apply expr_bind; [apply expr_ret|]. intros p _. destruct (_ =? 1); apply expr_ret.
  - destruct (if cs then entry v 0 k else entry v k 0) as [a|e| | |]; cbn [bind eval final fst snd]; try reflexivity.
    destruct (eqb E a (of_int E 0)) as [[]|e| | |]; cbn [bind eval final fst snd]; try reflexivity.
    cbv [final]. destruct (if cs then first_minor E v 0 k else first_minor E v k 0) as [w|e| | |]; cbn [bind eval fst snd]; try reflexivity.
    destruct (rec w) as [d|e| | |]; cbn [bind eval fst snd]; try reflexivity. destruct (mul E a d) as [p|e| | |]; cbn [bind eval fst snd]; try reflexivity.
    destruct (if k mod 2 =? 1 then _ else _) as [q|e| | |]; reflexivity.
Qed.
Lemma expr_row_exp fuel : forall G x v, G x = Some v -> expr G (h_cofactor_expansion E fuel true x) (row_expansion E fuel v).
Proof.
  induction fuel as [|f IH]; intros G x v Gx; cbn [h_cofactor_expansion row_expansion]; [apply expr_ret|].
  exact (expr_expansion G _ (row_expansion E f) true x v IH Gx).
Qed.
Lemma expr_col_exp fuel : forall G x v, G x = Some v -> expr G (h_cofactor_expansion E fuel false x) (col_expansion E fuel v).
Proof.
  induction fuel as [|f IH]; intros G x v Gx; cbn [h_cofactor_expansion col_expansion]; [apply expr_ret|].
  exact (expr_expansion G _ (col_expansion E f) false x v IH Gx).
Qed.
Lemma stmt_swap_rows G x v a b : stmt G x v (h_swap_rows x a b) (swap_rows v a b).
Proof.
  unfold h_swap_rows, swap_rows. destruct (a =? b); [apply stmt_done|]. eapply stmt_dims; [apply upd_same|]. cbv beta iota. apply stmt_for. intros k w.
  apply stmt_eval; [apply expr_get, upd_same|]. intros y _. apply stmt_eval; [apply expr_get, upd_same|]. intros z _. apply (stmt_then G x w _ _ _ (fun d => set_entry d b k y)); apply stmt_set.
Qed.
Lemma expr_find_pivot fuel : forall G x v r i pivot, G x = Some v -> expr G (h_find_pivot E fuel x r i pivot) (find_pivot E fuel v r i pivot).
Proof.
  induction fuel as [|f IH]; intros G x v r i pivot Gx; cbn [h_find_pivot find_pivot]; [apply expr_ret|].
  apply expr_bind; [apply expr_get, Gx|]. intros a _. apply expr_bind; [apply expr_ret|]. intros [] _; [|apply expr_ret].
  eapply expr_dims_then; [exact Gx|]. cbv beta iota. destruct (rows v =? i + 1); [|apply IH, Gx]. destruct (cols v =? pivot + 1); [apply expr_ret|apply IH, Gx].
Qed.
Lemma stmt_det_clear G x v r pivot : stmt G x v (h_det_clear E x r pivot) (det_clear E v r pivot).
Proof.
  unfold h_det_clear, det_clear. eapply stmt_dims; [apply upd_same|]. cbv beta iota. apply stmt_for. intros i w. destruct (i =? r); [apply stmt_done|].
  apply stmt_eval; [apply expr_get, upd_same|]. intros val _. eapply stmt_dims; [apply upd_same|]. cbv beta iota. apply stmt_for. intros j u.
  replace (eval u _ _) with (eval u (entry u r j) (fun a => eval u (mul E val a) (fun p => eval u (entry u r pivot) (fun b => eval u (div E p b) (fun q => assign_entry (subA E) u i j (Some q))))))
    by (destruct (entry u r j) as [a|e| | |]; [|reflexivity..]; cbn; destruct (mul E val a) as [p|e| | |]; [|reflexivity..]; cbn; destruct (entry u r pivot); reflexivity).
  repeat (apply stmt_eval; [first [apply expr_get, upd_same|apply expr_ret]|intros ? _]). apply stmt_assign_entry.
Qed.
Lemma stmt_rref_clear G x v r pivot : stmt G x v (h_rref_clear E x r pivot) (rref_clear E v r pivot).
Proof.
  unfold h_rref_clear, rref_clear. eapply stmt_dims; [apply upd_same|]. cbv beta iota. apply stmt_for. intros i w. destruct (i =? r); [apply stmt_done|].
  apply stmt_eval; [apply expr_get, upd_same|]. intros val _. eapply stmt_dims; [apply upd_same|]. cbv beta iota. apply stmt_for. intros j u.
  replace (eval u _ _) with (eval u (entry u r j) (fun a => eval u (mul E val a) (fun p => assign_entry (subA E) u i j (Some p)))) by (destruct (entry u r j); reflexivity).
  repeat (apply stmt_eval; [first [apply expr_get, upd_same|apply expr_ret]|intros ? _]). apply stmt_assign_entry.
Qed.
Lemma stmt_rref_rows G x n : forall r pivot v, stmt G x v (h_rref_rows E n r pivot x) (rref_rows E n r pivot v).
Proof.
  induction n as [|n IH]; intros r pivot v; cbn [h_rref_rows rref_rows]; [apply stmt_done|]. eapply stmt_dims; [apply upd_same|]. cbv beta iota.
  destruct (cols v <=? pivot); [apply stmt_done|]. apply stmt_eval; [apply expr_find_pivot, upd_same|]. intros [[i p]|] _; [|apply stmt_done].
  eapply (stmt_then G x v); [apply stmt_swap_rows|]. apply (stmt_eval G x _ (Get x r p)); [apply expr_get, upd_same|]. intros val _. eapply stmt_dims; [apply upd_same|]. cbv beta iota.
  eapply (stmt_then G x); [apply stmt_for; intros; apply stmt_assign_entry|]. eapply (stmt_then G x); [apply stmt_rref_clear|]. apply IH.
Qed.
Lemma stmt_inplace_rref G x v : stmt G x v (h_inplace_rref E x) (inplace_rref E v).
Proof. unfold h_inplace_rref, inplace_rref. eapply stmt_dims; [apply upd_same|]. apply stmt_rref_rows. Qed.
Lemma makes_rref G x v : G x = Some v -> makes G (h_rref E x) (rref E v).
Proof. intros Gx. apply (makes_then G _ _ _ (inplace_rref E)); [apply makes_copy, Gx|]. intros y w _ _. apply stmt_inplace_rref. Qed.
Lemma makes_diagonal G vals size : makes G (h_diagonal E vals size) (diagonalMatrix E vals size).
Proof.
  apply (makes_then G _ _ (fun x => pfor size 0 (fun i => v <~ Ret (read vals i) ;; Set_ x i i v)) (fun r => for_ size 0 (fun i r => eval r (read vals i) (fun x => set_entry r i i x)) r)); [apply makes_val|].
  intros x v _ Gx. apply stmt_for. intros i w. apply stmt_eval; [apply expr_ret|]. intros a _. apply stmt_set.
Qed.
Lemma makes_identity G size : makes G (h_identity E size) (identityMatrix E size).
Proof.
  apply (makes_then G _ _ (fun x => pfor size 0 (fun i => Set_ x i i (of_int E 1))) (fun r => for_ size 0 (fun i r => set_entry r i i (of_int E 1)) r)); [apply makes_val|].
  intros x v _ Gx. apply stmt_for. intros i w. apply stmt_set.
Qed.
Lemma makes_augmented G a b va vb : G a = Some va -> G b = Some vb -> makes G (h_augmented a b) (augmentedMatrix E va vb).
Proof.
  intros Ga Gb. unfold h_augmented, augmentedMatrix. eapply makes_dims; [exact Ga|]. cbv beta iota. eapply makes_dims; [exact Gb|]. cbv beta iota.
  destruct (negb _); [apply makes_throw|]. apply makes_returning. intros x Gx. apply stmt_for. intros i w. apply stmt_then.
  - apply stmt_for. intros j u. apply stmt_eval; [apply expr_get; look|]. intros y _. apply stmt_set.
  - apply stmt_for. intros j u. apply stmt_eval; [apply expr_get; look|]. intros y _. apply stmt_set.
Qed.
Lemma expr_trace G x v : G x = Some v -> expr G (h_trace E x) (trace E v).
Proof.
  intros Gx. unfold h_trace, trace. eapply expr_dims_then; [exact Gx|]. cbv beta iota. destruct (negb _); [apply expr_ret|]. apply expr_fold. intros i t.
  eapply expr_eq; [apply expr_bind; [apply expr_get, Gx|intros a _; apply expr_ret]|]. destruct (entry v i i) as [a|e| | |]; cbv [final]; cbn [bind eval fst snd]; try reflexivity. destruct (addA E t (Some a)); reflexivity.
Qed.
Lemma makes_transpose G x v : G x = Some v -> makes G (h_transpose x) (transpose E v).
Proof.
  intros Gx. unfold h_transpose, transpose. eapply makes_dims; [exact Gx|]. cbv beta iota. apply makes_returning. intros y Gy. apply stmt_for2. intros i j w.
  apply stmt_eval; [apply expr_get; look|]. intros a _. apply stmt_set.
Qed.
Lemma final_eval {S A} (m : res A) (f : A -> S) (s : S) : final (eval s m (fun a => done (f a))) = (a <- m ;; Ok (f a)).
Proof. destruct m; reflexivity. Qed.
Lemma expr_print G pr o x v : G x = Some v -> expr G (h_print pr o x) (M_print E pr o v).
Proof.
  intros Gx. apply expr_local; [apply makes_copy, Gx|]. intros y w _ Gy. eapply expr_dims_then; [apply upd_same|]. cbv beta iota. apply expr_fold. intros i u.
  eapply expr_dims_then; [apply upd_same|]. cbv beta iota.
  eapply expr_eq; [apply expr_bind; [apply expr_fold with (f := fun j o => eval o (entry w i j) (fun x => done (put (pr o x) [" "%char])))|intros z _; apply expr_ret]|].
  - intros j t. rewrite final_eval. apply expr_bind; [apply expr_get, upd_same|]. intros a _. apply expr_ret.
  - cbv [final andthen]. destruct (for_ (cols w) 0 _ u) as [u' [[]|e| | |]]; cbn [fst snd bind]; try reflexivity. destruct (i <? rows w - 1); reflexivity.
Qed.

(** *** Functions with a local object that changes *)
Lemma acts_swap G x y v w : G x = Some v -> G y = Some w -> acts G (Swap x y) (Ok tt) (fun _ _ H => same H (upd (upd G x (Some w)) y (Some v))) (fun _ => False).
Proof. intros Gx Gy s Hs. destruct (swap_ok s G x y v w Hs Gx Gy) as (s' & R & H). exists s', tt, (upd (upd G x (Some w)) y (Some v)). auto using same_refl. Qed.
Lemma bind_ok {A} (m : res A) : (a <- m ;; Ok a) = m. Proof. destruct m; reflexivity. Qed.
Lemma acts_assign G x a v w : G x = Some v -> G a = Some w -> acts G (h_assign x a) (Mat_copy E w) (fun r _ H => same H (upd G x (Some r))) (fun H => same H G).
Proof.
  intros Gx Ga. rewrite <- (bind_ok (Mat_copy E w)). apply acts_local; [apply makes_copy, Ga|auto|]. intros y r _ Gy. pose proof (apart G y x v Gy Gx) as N.
  intros s Hs. destruct (acts_swap (upd G y (Some r)) x y v r) with (s := s) as (s' & [] & H & R & Ho & X); [look|look|exact Hs|].
  exists s', tt, H. split; [exact R|]. split; [exact Ho|]. split; [rewrite X, upd_same; discriminate|]. intros z. rewrite (same_upd _ _ y None X).
  unfold upd. destruct (Nat.eqb_spec z y), (Nat.eqb_spec z x); congruence.
Qed.
Lemma acts_product_assign G x b v w : G x = Some v -> G b = Some w -> acts G (h_product_assign E x b) (M_product E v w) (fun r _ H => same H (upd G x (Some r))) (fun H => same H G).
Proof.
  intros Gx Gb. unfold h_product_assign, M_product. eapply acts_dims; [exact Gx|]. cbv beta iota. eapply acts_dims; [exact Gb|]. cbv beta iota.
  destruct (negb _); [apply acts_ret; auto|]. apply acts_local; [apply makes_val|auto|]. intros y z _ Gy. pose proof (apart G y x v Gy Gx) as N.
  pose proof (stmt_product_into G x b y v w z Gy Gx Gb) as P. unfold product_loops in P. set (o := for_ (rows v) 0 _ z) in *.
  unfold final. eapply acts_bind.
  - eapply acts_weaken; [exact P| |]; cbn beta.
    + intros u u2 H _ X. exact X.
    + intros e H _ X. split; [rewrite X, upd_same; discriminate|]. eapply back; eassumption.
  - cbn beta. intros [] [] H _ X. apply (acts_same (upd G y (Some (fst o)))); [intros k; symmetry; apply X|].
    intros s Hs. destruct (acts_swap (upd G y (Some (fst o))) x y v (fst o)) with (s := s) as (s' & [] & H' & R & Ho & X'); [look|look|exact Hs|].
    exists s', tt, H'. split; [exact R|]. split; [exact Ho|]. split; [rewrite X', upd_same; discriminate|]. intros k. rewrite (same_upd _ _ y None X').
    unfold upd. destruct (Nat.eqb_spec k y), (Nat.eqb_spec k x); congruence.
Qed.
(** statements that also return a value *)
Definition works {A} (G : env) (x : nat) (v : Mat T) (p : prog T A) (m : res (Mat T * A)) : Prop :=
  acts (upd G x (Some v)) p m (fun wa a H => a = snd wa /\ same H (upd G x (Some (fst wa)))) (fun H => exists w, same H (upd G x (Some w))).
Lemma works_ret {A} G x v (m : res A) : works G x v (Ret m) (a <- m ;; Ok (v, a)).
Proof. apply acts_ret. destruct m as [a|e| | |]; cbn [bind]; auto; [exists a|split]; eauto. Qed.
Lemma works_expr {A B} G x v (p : prog T A) (k : A -> prog T B) m n : expr (upd G x (Some v)) p m -> (forall a, m = Ok a -> works G x v (k a) (n a)) -> works G x v (Bind p k) (a <- m ;; n a).
Proof. intros P K. apply acts_expr; [exact P|eauto|exact K]. Qed.
Lemma works_stmt {B} G x v p (q : prog T B) o (n : Mat T -> res (Mat T * B)) : stmt G x v p o -> works G x (fst o) q (n (fst o)) -> works G x v (_ <~ p ;; q) (w <- final o ;; n w).
Proof.
  intros P K. unfold works. replace (w <- final o ;; n w) with (_ <- snd o ;; n (fst o)) by (destruct o as [w [[]|e| | |]]; reflexivity). eapply acts_bind.
  - eapply acts_weaken; [exact P| |]; cbn beta; [intros b a H _ X; exact X|]. eauto.
  - cbn beta. intros c a H _ X. apply (acts_same (upd G x (Some (fst o)))); [intros y; symmetry; apply X|exact K].
Qed.
Lemma works_bind {A B} G x v (p : prog T A) (k : A -> prog T B) m (n : Mat T -> A -> res (Mat T * B)) : works G x v p m -> (forall w a, works G x w (k a) (n w a)) -> works G x v (Bind p k) (' (w, a) <- m ;; n w a).
Proof.
  intros P K. eapply acts_bind; [exact P|]. cbn beta. intros [w a] a' H _ [-> X]. apply (acts_same (upd G x (Some w))); [intros y; symmetry; apply X|exact (K w a)].
Qed.
Lemma works_eq {A} G x v (p : prog T A) m n : works G x v p m -> m = n -> works G x v p n.
Proof. intros P <-. exact P. Qed.
Lemma works_dims {A} G x v (k : nat * nat -> prog T A) m : works G x v (k (rows v, cols v)) m -> works G x v (Bind (Dims x) k) m.
Proof. intros P. exact (acts_dims _ x v k m _ _ (upd_same G x _) P). Qed.
Lemma works_det_rows G x n : forall r v factor pivot, works G x v (h_det_rows E n r x factor pivot) (det_rows E n r v factor pivot).
Proof.
  induction n as [|n IH]; intros r v factor pivot; cbn [h_det_rows det_rows]; [exact (works_ret G x v (Ok factor))|]. apply works_dims. cbv beta iota.
  destruct (cols v <=? pivot); [exact (works_ret G x v (Ok factor))|]. apply works_expr; [apply expr_find_pivot, upd_same|]. intros [[i p]|] _; [|exact (works_ret G x v (Ok factor))].
  apply (works_bind G x v _ _ _ (fun tmp factor => tmp <- final (det_clear E tmp r p) ;; det_rows E n (S r) tmp factor (p + 1))).
  - destruct (i =? r); [exact (works_ret G x v (Ok factor))|]. apply (works_stmt G x v _ _ _ (fun t => f <- mulA E factor (Some (of_int E (-1))) ;; Ok (t, f))); [apply stmt_swap_rows|apply works_ret].
  - intros w f. apply (works_stmt G x w _ _ _ (fun tmp => det_rows E n (S r) tmp f (p + 1))); [apply stmt_det_clear|apply IH].
Qed.
(** a local object that the program may change *)
Lemma expr_local_works {A} G f m (body : nat -> prog T A) (n : Mat T -> res (Mat T * A)) : makes G f m -> (forall x v, m = Ok v -> G x = None -> works G x v (body x) (n v)) ->
  expr G (local f body) (v <- m ;; ' (_, a) <- n v ;; Ok a).
Proof.
  intros P K. apply acts_local; [exact P|auto|]. intros x v Em Gx. pose proof (K x v Em Gx) as W. intros s Hs. specialize (W s Hs). destruct (n v) as [[w a]|e| | |]; cbn [bind]; auto.
  - destruct W as (s' & a' & H & R & Ho & -> & X). cbn [fst snd] in *. exists s', a, H. split; [exact R|]. split; [exact Ho|]. split; [rewrite X, upd_same; discriminate|]. split; [reflexivity|]. eapply back; eassumption.
  - destruct W as (s' & H & R & Ho & w & X). exists s', H. split; [exact R|]. split; [exact Ho|]. split; [rewrite X, upd_same; discriminate|]. eapply back; eassumption.
Qed.
Lemma expr_determinant G x v : G x = Some v -> expr G (h_determinant E x) (determinant E v).
Proof.
  intros Gx. unfold h_determinant, determinant. eapply expr_dims_then; [exact Gx|]. cbv beta iota.
  destruct (negb _); [apply expr_ret|]. destruct (rows v =? 1); [apply expr_data, Gx|]. destruct (rows v =? 2); [apply expr_det2, Gx|].
  pose (loop := fun tmp : Mat T => for_ (rows tmp) 0 (fun i p => eval p (x <- entry tmp i i ;; mulA E p (Some x)) done) (of_int E 1)).
  eapply expr_eq; [apply expr_local_works with (m := Mat_copy E v) (n := fun tmp => ' (tmp, factor) <- det_rows E (rows tmp) 0 tmp (of_int E 1) 0 ;; prod <- final (loop tmp) ;; q <- div E prod factor ;; Ok (tmp, q))|].
  - apply makes_copy, Gx.
  - intros y w _ Gy. apply works_dims. cbv beta iota. apply (works_bind G y w _ _ _ (fun tmp factor => prod <- final (loop tmp) ;; q <- div E prod factor ;; Ok (tmp, q))); [apply works_det_rows|].
    intros u f. apply works_dims. cbv beta iota. apply works_expr; [|intros p _; apply works_ret]. apply expr_fold. intros i p.
    eapply expr_eq; [apply expr_bind; [apply expr_get, upd_same|intros a _; apply expr_ret]|]. destruct (entry u i i) as [a|e| | |]; cbv [final]; cbn [bind eval fst snd]; try reflexivity. destruct (mulA E p (Some a)); reflexivity.
  - destruct (Mat_copy E v) as [tmp|e| | |]; cbn [bind]; try reflexivity. destruct (det_rows E (rows tmp) 0 tmp (of_int E 1) 0) as [[u f]|e| | |]; cbn [bind]; try reflexivity.
    fold (loop u). destruct (final (loop u)) as [p|e| | |]; cbn [bind]; try reflexivity. destruct (div E p f); reflexivity.
Qed.
Lemma final_fst {S} (o : outcome S) r : final o = Ok r -> fst o = r.
Proof. destruct o as [w [[]|e| | |]]; cbv [final]; cbn; congruence. Qed.
Lemma makes_inverse G x v : G x = Some v -> makes G (h_inverse E x) (inverse E v).
Proof.
  intros Gx. unfold h_inverse, inverse. eapply makes_dims; [exact Gx|]. cbv beta iota. destruct (negb _); [apply makes_throw|].
  apply makes_local; [apply makes_identity|]. intros d I _ Gd. set (G1 := upd G d (Some I)). assert (G1d : G1 d = Some I) by apply upd_same.
  assert (G1x : G1 x = Some v) by (unfold G1; look).
  apply acts_local; [apply makes_augmented; assumption|auto|]. intros r R _ Gr.
  pose (loops := fun R : Mat T => for2 (rows v) (cols v) (fun i j result =>
    eval result (x <- entry R i j ;; y <- entry I i j ;; eqb E x y) (fun e : bool =>
      if e then eval result (entry R i (j + rows v)) (fun x => set_entry result i j x) else (result, Throw DomainError))) (Mat_new E (rows v) (cols v))).
  change (acts (upd G1 r (Some R)) (returning (rows v) (cols v) (fun result =>
      _ <~ h_inplace_rref E r ;;
      pfor2 (rows v) (cols v) (fun i j =>
        v0 <~ Get r i j ;; w <~ Get d i j ;; e <~ Ret (eqb E v0 w) ;;
        if e : bool then v1 <~ Get r i (j + rows v) ;; Set_ result i j v1 else Ret (Throw DomainError)))) (R' <- final (inplace_rref E R) ;; final (loops R'))
     (fun w y H => H r <> None /\ G1 y = None /\ same (upd H r None) (upd G1 y (Some w))) (fun H => H r <> None /\ same (upd H r None) G1)).
  apply acts_new. intros y Gy. assert (Ny : y <> r) by (intros ->; rewrite upd_same in Gy; discriminate). rewrite upd_other in Gy by exact Ny.
  apply acts_keep. set (N := Mat_new E (rows v) (cols v)).
  (* the row reduction, on r *)
  pose proof (stmt_inplace_rref (upd G1 y (Some N)) r R) as P1. set (o1 := inplace_rref E R) in *.
  apply (acts_same (upd (upd G1 y (Some N)) r (Some R))); [intros z; apply upd_swap; exact Ny|].
  assert (Fin : forall H w, same H (upd (upd G1 y (Some w)) r (Some (fst o1))) -> H y <> None /\ upd H y None r <> None /\ same (upd (upd H y None) r None) G1).
  { intros H w X. split; [rewrite X, upd_other, upd_same by exact Ny; discriminate|]. split; [rewrite upd_other, X, upd_same by auto; discriminate|].
    intros z. unfold upd at 1 2. destruct (Nat.eqb_spec z r) as [->|]; [symmetry; exact Gr|]. destruct (Nat.eqb_spec z y) as [->|]; [symmetry; exact Gy|]. rewrite X, !upd_other by assumption. reflexivity. }
  intros s Hs. specialize (P1 s Hs). cbn [hrun]. destruct o1 as [R1 [[]|e| | |]] eqn:Eo; cbv [final] ; cbn [bind fst snd] in *.
  - destruct P1 as (s1 & [] & H1 & -> & Ho1 & X1). cbn [hrun].
    assert (P2 : stmt (upd G1 r (Some R1)) y N (pfor2 (rows v) (cols v) (fun i j =>
        v0 <~ Get r i j ;; w <~ Get d i j ;; e <~ Ret (eqb E v0 w) ;;
        if e : bool then v1 <~ Get r i (j + rows v) ;; Set_ y i j v1 else Ret (Throw DomainError))) (loops R1)).
    { apply stmt_for2. intros i j w. assert (Gdn : forall u, upd (upd G1 r (Some R1)) y u d = Some I).
      { intros u. rewrite !upd_other; [exact G1d| |]; eauto using apart. }
      assert (Grn : forall u, upd (upd G1 r (Some R1)) y u r = Some R1) by (intros u; rewrite upd_other, upd_same by auto; reflexivity).
      replace (eval w (x0 <- entry R1 i j ;; y0 <- entry I i j ;; eqb E x0 y0) _) with
        (eval w (entry R1 i j) (fun a => eval w (entry I i j) (fun b => eval w (eqb E a b) (fun e : bool => if e then eval w (entry R1 i (j + rows v)) (fun x => set_entry w i j x) else (w, Throw DomainError)))))
        by (destruct (entry R1 i j); [|reflexivity..]; cbn; destruct (entry I i j); reflexivity).
      apply stmt_eval; [apply expr_get, Grn|]. intros a _. apply stmt_eval; [apply expr_get, Gdn|]. intros b _. apply stmt_eval; [apply expr_ret|]. intros [] _; [|apply stmt_throw].
      apply stmt_eval; [apply expr_get, Grn|]. intros c _. apply stmt_set. }
    assert (Hs2 : holds s1 (upd (upd G1 r (Some R1)) y (Some N))) by (eapply holds_ext; [exact Ho1|]; intros z; rewrite X1; apply upd_swap; exact Ny).
    specialize (P2 s1 Hs2). set (o2 := loops R1) in *. destruct o2 as [w [[]|e| | |]]; cbv [final]; cbn [bind fst snd] in *.
    + destruct P2 as (s2 & [] & H2 & -> & Ho2 & X2). exists s2, y, H2. split; [reflexivity|]. split; [exact Ho2|].
      split; [rewrite X2, upd_other, upd_same by auto; discriminate|]. split; [exact Gy|].
      intros z. unfold upd at 1. destruct (Nat.eqb_spec z r) as [->|]; [rewrite upd_other by auto; symmetry; exact Gr|]. rewrite X2. unfold upd. destruct (Nat.eqb_spec z y), (Nat.eqb_spec z r); congruence.
    + destruct P2 as (s2 & H2 & -> & Ho2 & X2). exists s2, H2. split; [reflexivity|]. split; [exact Ho2|]. apply (Fin H2 w). intros z. rewrite X2. apply upd_swap. auto.
    + destruct (hrun E _ s1) as [s2 q]; cbn in P2; subst q. reflexivity.
    + destruct (hrun E _ s1) as [s2 q]; cbn in P2; subst q. reflexivity.
    + destruct (hrun E _ s1) as [s2 q]; cbn in P2; subst q. reflexivity.
  - destruct P1 as (s1 & H1 & -> & Ho1 & X1). cbn [hrun bind]. exists s1, H1. split; [reflexivity|]. split; [exact Ho1|]. apply (Fin H1 N X1).
  - destruct (hrun E _ s) as [s1 q]; cbn in P1; subst q. reflexivity.
  - destruct (hrun E _ s) as [s1 q]; cbn in P1; subst q. reflexivity.
  - destruct (hrun E _ s) as [s1 q]; cbn in P1; subst q. reflexivity.
Qed.

(** *** From a memory *)
Lemma holds_value s : owned s -> holds s (value s). Proof. intros O. split; auto. Qed.
Lemma returns_of s p m : owned s -> makes (value s) p m -> returns E s p m.
Proof.
  intros O P. specialize (P s (holds_value s O)). destruct m as [v|e| | |]; cbn [returns]; auto.
  - destruct P as (s' & x & H & R & [O' V'] & Gx & X). exists s', x. split; [exact R|]. split; [exact O'|]. split; [exact Gx|]. intros y. rewrite V'. apply X.
  - destruct P as (s' & H & R & [O' V'] & X). exists s'. split; [exact R|]. split; [exact O'|]. intros y. rewrite V'. apply X.
Qed.
Lemma yields_of {A} s (p : prog T A) m : owned s -> expr (value s) p m -> yields E s p m.
Proof.
  intros O P. specialize (P s (holds_value s O)). destruct m as [v|e| | |]; cbn [yields]; auto.
  - destruct P as (s' & x & H & R & [O' V'] & -> & X). exists s'. split; [exact R|]. split; [exact O'|]. intros y. rewrite V'. apply X.
  - destruct P as (s' & H & R & [O' V'] & X). exists s'. split; [exact R|]. split; [exact O'|]. intros y. rewrite V'. apply X.
Qed.
Lemma changes_of s x v p o : owned s -> value s x = Some v -> stmt (value s) x v p o -> changes E s x p o.
Proof.
  intros O Gx P. assert (Hs : holds s (upd (value s) x (Some v))) by (eapply holds_ext; [apply holds_value, O|]; intros y; symmetry; apply upd_id, Gx).
  specialize (P s Hs). unfold changes. destruct o as [w [[]|e| | |]]; cbn [fst snd] in *; auto.
  - destruct P as (s' & [] & H & R & [O' V'] & X). exists s'. split; [exact R|]. split; [exact O'|]. intros y. rewrite V'. apply X.
  - destruct P as (s' & H & R & [O' V'] & X). exists s'. split; [exact R|]. split; [exact O'|]. intros y. rewrite V'. apply X.
Qed.
Lemma changes_of_res s x v p (m : res (Mat T)) : owned s -> value s x = Some v -> acts (value s) p m (fun r _ H => same H (upd (value s) x (Some r))) (fun H => same H (value s)) ->
  changes E s x p (match m with Ok r => done r | m => (v, _ <- m ;; Ok tt) end).
Proof.
  intros O Gx P. specialize (P s (holds_value s O)). unfold changes. destruct m as [w|e| | |]; cbn [fst snd done bind] in *; auto.
  - destruct P as (s' & [] & H & R & [O' V'] & X). exists s'. split; [exact R|]. split; [exact O'|]. intros y. rewrite V'. apply X.
  - destruct P as (s' & H & R & [O' V'] & X). exists s'. split; [exact R|]. split; [exact O'|]. intros y. rewrite V'. rewrite X. symmetry. apply upd_id, Gx.
Qed.
Lemma changes_assign s x a v w : owned s -> value s x = Some v -> value s a = Some w -> changes E s x (h_assign x a) (M_assign E v (Some w)).
Proof. intros O Gx Ga. pose proof (changes_of_res s x v (h_assign x a) (Mat_copy E w) O Gx (acts_assign _ x a v w Gx Ga)) as P. unfold M_assign. cbn [rd]. destruct (Mat_copy E w); exact P. Qed.
Lemma changes_product_assign s x b v w : owned s -> value s x = Some v -> value s b = Some w -> changes E s x (h_product_assign E x b) (M_product_assign E v (Some w)).
Proof. intros O Gx Gb. pose proof (changes_of_res s x v (h_product_assign E x b) (M_product E v w) O Gx (acts_product_assign _ x b v w Gx Gb)) as P. unfold M_product_assign. cbn [rd]. destruct (M_product E v w); exact P. Qed.
Lemma changes_mat_assign op s x b v w : owned s -> value s x = Some v -> value s b = Some w -> changes E s x (h_mat_assign op x b) (mat_assign op v (if b =? x then None else Some w)).
Proof.
  intros O Gx Gb. apply changes_of with (v := v); auto. apply stmt_mat_assign. destruct (Nat.eqb_spec b x); cbn [operand]; auto.
Qed.
Lemma returns_new s r c : owned s -> returns E s (New r c) (Ok (Mat_new E r c)).
Proof.
  intros O. destruct (new_ok s (value s) r c (holds_value s O)) as (s' & x & R & Gx & [O' V']). exists s', x. auto.
Qed.
Lemma destroys s x : owned s -> live (objs s) x <> None -> exists s', hrun E (Del x) s = (s', Ok tt) /\ owned s' /\ forall y, value s' y = upd (value s) x None y.
Proof.
  intros O L. destruct (value s x) as [m|] eqn:Ex; [|destruct (L (no_value s x O Ex))].
  destruct (destroy_ok s (value s) x m (holds_value s O) Ex) as (s' & R & O' & V'). exists s'. auto.
Qed.
(** *** Every program keeps the memory in order *)
Lemma destroy_owned (s : mem) x : owned s -> owned (fst (destroy s x)).
Proof.
  intros O. destruct (value s x) as [m|] eqn:Ex.
  - destruct (destroy_ok s (value s) x m (holds_value s O) Ex) as (s' & -> & O' & _). exact O'.
  - unfold destroy. rewrite (no_value s x O Ex). exact O.
Qed.
Lemma run_owned {A} (p : prog T A) : forall s, owned s -> owned (fst (hrun E p s)).
Proof.
  induction p as [A m|A B p IH k IHk|A x keep p IH|r c|x|x i j|x k|x i j v|x|x y]; intros s O.
  - exact O.
  - cbn [hrun]. specialize (IH s O). destruct (hrun E p s) as [s' [a|e| | |]]; cbn [fst] in *; auto.
  - cbn [hrun]. specialize (IH s O). destruct (hrun E p s) as [s' [a|e| | |]]; cbn [fst] in *; auto.
    + destruct keep; [exact IH|]. pose proof (destroy_owned s' x IH) as D. destruct (destroy s' x). exact D.
    + pose proof (destroy_owned s' x IH) as D. destruct (destroy s' x). exact D.
  - destruct (new_ok s (value s) r c (holds_value s O)) as (s' & x & -> & _ & [O' _]). exact O'.
  - cbn [hrun]. apply destroy_owned, O.
  - exact O.
  - exact O.
  - destruct (value s x) as [m|] eqn:Ex.
    + pose proof (store_ok s (value s) x m i j v (holds_value s O) Ex) as P. destruct (set_entry m i j v) as [m' [[]|e| | |]]; try (rewrite P; exact O). destruct P as (s' & -> & O' & _). exact O'.
    + cbn [hrun]. unfold store. rewrite (no_value s x O Ex). exact O.
  - exact O.
  - destruct (value s x) as [m|] eqn:Ex; [destruct (value s y) as [n|] eqn:Ey|].
    + destruct (swap_ok s (value s) x y m n (holds_value s O) Ex Ey) as (s' & -> & O' & _). exact O'.
    + cbn [hrun]. rewrite (no_value s y O Ey). destruct (live (objs s) x); exact O.
    + cbn [hrun]. rewrite (no_value s x O Ex). exact O.
Qed.
End Heap.

(** *** Counting *)
Definition indices {A} (l : list (option A)) : list nat := filter (fun k => match live l k with Some _ => true | None => false end) (seq 0 (length l)).
Lemma indices_in {A} (l : list (option A)) k : In k (indices l) <-> exists a, live l k = Some a.
Proof.
  unfold indices. rewrite filter_In, in_seq. split.
  - intros [_ H]. destruct (live l k); [eauto|discriminate].
  - intros [a H]. rewrite H. pose proof (live_lt _ _ _ H). split; [lia|reflexivity].
Qed.
Lemma indices_nodup {A} (l : list (option A)) : NoDup (indices l). Proof. apply NoDup_filter, seq_NoDup. Qed.
Lemma count_indices {A} (l : list (option A)) : count l = length (indices l).
Proof.
  unfold count, indices. enough (H : forall pre, length (filter (fun o => match o with Some _ => true | None => false end) l) = length (filter (fun k => match live (pre ++ l) k with Some _ => true | None => false end) (seq (length pre) (length l)))) by exact (H []).
  induction l as [|a l IH]; intros pre; [reflexivity|]. cbn [length seq filter]. specialize (IH (pre ++ [a])). rewrite <- app_assoc, app_length in IH. cbn [app length] in IH. rewrite Nat.add_1_r in IH.
  assert (L : live (pre ++ a :: l) (length pre) = a) by (unfold live; rewrite nth_error_app2, Nat.sub_diag by lia; reflexivity). rewrite L. destruct a; cbn [length]; congruence.
Qed.
Lemma owned_count {T} (s : memory T) : owned s -> count (arrays s) = count (objs s).
Proof.
  intros (L & I & N). rewrite !count_indices.
  pose (addr := fun x => match live (objs s) x with Some o => odata o | None => 0 end).
  assert (ND : NoDup (map addr (indices (objs s)))).
  { assert (J : forall l, NoDup l -> (forall x, In x l -> exists o, live (objs s) x = Some o) -> NoDup (map addr l)).
    { induction l as [|x l IH]; intros D K; [constructor|]. inversion_clear D. cbn [map]. constructor; [|apply IH; auto; intros; apply K; right; assumption].
      intros C. apply in_map_iff in C as (y & Ea & Hy). destruct (K x (or_introl eq_refl)) as (o & Ho). destruct (K y (or_intror Hy)) as (o' & Ho'). unfold addr in Ea. rewrite Ho, Ho' in Ea.
      pose proof (I y x o' o Ho' Ho Ea). subst y. contradiction. }
    apply J; [apply indices_nodup|]. intros x Hx. apply indices_in in Hx. exact Hx. }
  assert (P : forall k, In k (indices (arrays s)) <-> In k (map addr (indices (objs s)))).
  { intros k. rewrite indices_in, in_map_iff. split.
    - intros [a Ha]. destruct (N k a Ha) as (x & o & Ho & Ed). exists x. unfold addr. rewrite Ho. split; [exact Ed|]. apply indices_in. eauto.
    - intros (x & Ea & Hx). apply indices_in in Hx as [o Ho]. unfold addr in Ea. rewrite Ho in Ea. subst k. pose proof (L x o Ho). destruct (live (arrays s) (odata o)); [eauto|congruence]. }
  rewrite <- (map_length addr (indices (objs s))). apply Nat.le_antisymm; apply NoDup_incl_length; auto using indices_nodup; intros k; apply P.
Qed.
Lemma owned_empty {T} : owned (mkMem (T := T) [] []).
Proof. split; [|split]; intros *; unfold live; cbn; destruct x || destruct p; discriminate. Qed.
