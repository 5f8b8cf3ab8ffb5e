(** Proofs about Mat when memory runs out (AllocModel.v). *)
From Coq Require Import Ascii.
From Verif Require Import Base IntModel IOModel ElemModel ElemSpec ElemProofs VecModel MatModel HeapModel HeapSpec HeapProofs AllocModel AllocSpec.
Local Open Scope list_scope.
Local Open Scope nat_scope.

Section Alloc.
Context {T : Type} (E : ops T) (el : bool) (fails : nat -> bool) (junk : nat -> T).
Local Notation mem := (memory T).
Local Notation env := (nat -> option (Mat T)).
Local Notation run := (arun E el fails junk).
(** *** Triples: what a program leaves when it returns, throws, runs out of memory *)
Definition tri {A} (G : env) (p : prog T A) (QO : A -> env -> Prop) (QT QN : env -> Prop) : Prop :=
  forall s n, holds s G ->
    match hrun E p s with
    | (s', Ok a) => exists H, holds s' H /\ QO a H
    | (s', Throw _) => exists H, holds s' H /\ QT H
    | _ => True
    end /\
    match run p s n with
    | (s', _, Fin m) => hrun E p s = (s', m)
    | (s', _, NoMem) => exists H, holds s' H /\ QN H
    end.
Lemma tri_weaken {A} G (p : prog T A) (QO QO' : A -> env -> Prop) (QT QT' QN QN' : env -> Prop) : tri G p QO QT QN ->
  (forall a H, QO a H -> QO' a H) -> (forall H, QT H -> QT' H) -> (forall H, QN H -> QN' H) -> tri G p QO' QT' QN'.
Proof.
  intros P K1 K2 K3 s n Hs. destruct (P s n Hs) as [P1 P2]. split.
  - destruct (hrun E p s) as [s' [a|e| | |]]; auto; destruct P1 as (H & H1 & H2); exists H; auto.
  - destruct (run p s n) as [[s' n'] [m|]]; auto. destruct P2 as (H & H1 & H2). exists H. auto.
Qed.
Lemma tri_same {A} G H (p : prog T A) QO QT QN : same G H -> tri G p QO QT QN -> tri H p QO QT QN.
Proof. intros X P s n Hs. apply P. eapply holds_ext; [exact Hs|]. intros x. symmetry. apply X. Qed.
Lemma tri_bind {A B} G (p : prog T A) (k : A -> prog T B) Q QO QT QN : tri G p Q QT QN ->
  (forall a H, Q a H -> tri H (k a) QO QT QN) -> tri G (Bind p k) QO QT QN.
Proof.
  intros P K s n Hs. destruct (P s n Hs) as [P1 P2]. cbn [hrun arun]. split.
  - destruct (hrun E p s) as [s1 [a|e| | |]]; cbn [bind]; auto. destruct P1 as (H & H1 & H2). exact (proj1 (K a H H2 s1 n H1)).
  - destruct (run p s n) as [[s1 n1] [[a|e| | |]|]]; cbn [bind]; try (rewrite P2; reflexivity).
    + rewrite P2 in *. destruct P1 as (H & H1 & H2). exact (proj2 (K a H H2 s1 n1 H1)).
    + exact P2.
Qed.
Lemma tri_ret {A} G (m : res A) (QO : A -> env -> Prop) (QT QN : env -> Prop) : (forall a, m = Ok a -> QO a G) -> (forall e, m = Throw e -> QT G) -> (el = true -> QN G) -> tri G (Ret m) QO QT QN.
Proof.
  intros K1 K2 K3 s n Hs. cbn [hrun arun]. unfold with_element. split.
  - destruct m as [a|e| | |]; auto; exists G; eauto.
  - destruct el; [destruct (fails n)|]; auto. exists G. auto.
Qed.
Lemma tri_scope {A} G x (keep : bool) (p : prog T A) (QO : A -> env -> Prop) (QT QN : env -> Prop) :
  tri G p (fun a H => if keep then QO a H else H x <> None /\ QO a (upd H x None)) (fun H => H x <> None /\ QT (upd H x None)) (fun H => H x <> None /\ QN (upd H x None)) ->
  tri G (Scope x keep p) QO QT QN.
Proof.
  intros P s n Hs. destruct (P s n Hs) as [P1 P2]. cbn [hrun arun].
  assert (D : forall (s' : mem) (H : env), holds s' H -> H x <> None -> exists s2, destroy s' x = (s2, Ok tt) /\ holds s2 (upd H x None)).
  { intros s' H Hh Hx. destruct (H x) as [v|] eqn:Ex; [|congruence]. exact (destroy_ok s' H x v Hh Ex). }
  split.
  - destruct (hrun E p s) as [s1 [a|e| | |]]; auto.
    + destruct P1 as (H & H1 & H2). destruct keep; [exists H; auto|]. destruct H2 as [H2 H3]. destruct (D s1 H H1 H2) as (s2 & -> & H4). exists (upd H x None). auto.
    + destruct P1 as (H & H1 & H2 & H3). destruct (D s1 H H1 H2) as (s2 & -> & H4). exists (upd H x None). auto.
  - destruct (run p s n) as [[s1 n1] [[a|e| | |]|]]; try (rewrite P2; reflexivity).
    + rewrite P2. destruct keep; [reflexivity|]. destruct (destroy s1 x). reflexivity.
    + rewrite P2. destruct (destroy s1 x). reflexivity.
    + destruct P2 as (H & H1 & H2 & H3). destruct (D s1 H H1 H2) as (s2 & Ed & H4). unfold unwind. rewrite Ed. exists (upd H x None). auto.
Qed.
Lemma tri_new G r c : tri G (New r c) (fun x H => G x = None /\ same H (upd G x (Some (Mat_new E r c)))) (fun _ => False) (fun H => same H G).
Proof.
  intros s n Hs. destruct (new_ok E s G r c Hs) as (s' & x & R & Gx & Hn). split.
  - rewrite R. exists (upd G x (Some (Mat_new E r c))). auto using same_refl.
  - cbn [arun]. destruct (fails n); [exists G; auto using same_refl|]. reflexivity.
Qed.
Lemma tri_dims G x v : G x = Some v -> tri G (Dims x) (fun a H => a = (rows v, cols v) /\ same H G) (fun _ => False) (fun _ => False).
Proof.
  intros Gx s n Hs. pose proof (dims_ok E s G x v Hs Gx) as D. split.
  - rewrite D. exists G. auto using same_refl.
  - cbn [arun]. rewrite D. reflexivity.
Qed.
Lemma load_no_throw (s : mem) x k e : load s x k <> Throw e.
Proof. unfold load. destruct (live (objs s) x); [|discriminate]. destruct (live (arrays s) _); [|discriminate]. apply read_no_throw. Qed.
Lemma tri_get G x i j : tri G (Get x i j) (fun _ H => same H G) (fun _ => False) (fun H => el = true /\ same H G).
Proof.
  intros s n Hs. cbn [hrun arun]. unfold with_element. split.
  - pose proof (load_no_throw s x (fun o => i * ocols o + j)) as N. destruct (load s x _) as [a|e| | |]; auto; [exists G; auto using same_refl|destruct (N e eq_refl)].
  - destruct el; [destruct (fails n)|]; auto. exists G. auto using same_refl.
Qed.
Lemma tri_data G x k : tri G (Data x k) (fun _ H => same H G) (fun _ => False) (fun H => el = true /\ same H G).
Proof.
  intros s n Hs. cbn [hrun arun]. unfold with_element. split.
  - pose proof (load_no_throw s x (fun _ => k)) as N. destruct (load s x _) as [a|e| | |]; auto; [exists G; auto using same_refl|destruct (N e eq_refl)].
  - destruct el; [destruct (fails n)|]; auto. exists G. auto using same_refl.
Qed.
Lemma tri_dims_any G x : tri G (Dims x) (fun _ H => same H G) (fun _ => False) (fun _ => False).
Proof.
  intros s n Hs. cbn [hrun arun]. split; [|reflexivity]. destruct (live (objs s) x); auto. exists G. auto using same_refl.
Qed.
Lemma tri_swap G x y : tri G (Swap x y) (fun _ H => exists v w, G x = Some v /\ G y = Some w /\ same H (upd (upd G x (Some w)) y (Some v))) (fun _ => False) (fun _ => False).
Proof.
  intros s n Hs. split; [|cbn [arun]; destruct (hrun E (Swap x y) s); reflexivity]. destruct (G x) as [v|] eqn:Gx.
  - destruct (G y) as [w|] eqn:Gy.
    + destruct (swap_ok E s G x y v w Hs Gx Gy) as (s' & -> & Hh). exists (upd (upd G x (Some w)) y (Some v)). split; [exact Hh|]. exists v, w. auto using same_refl.
    + cbn [hrun]. destruct Hs as [O V]. rewrite <- V in Gy. apply no_value in Gy; auto. rewrite Gy. destruct (live (objs s) x); exact I.
  - cbn [hrun]. destruct Hs as [O V]. rewrite <- V in Gx. apply no_value in Gx; auto. rewrite Gx. exact I.
Qed.
(** *** Statements that change the entries of the objects X *)
Definition near (X : nat -> bool) (G H : env) : Prop := forall y,
  if X y then match G y, H y with Some v, Some w => same_shape v w | None, None => True | _, _ => False end else H y = G y.
Lemma near_refl X G : near X G G.
Proof. intros y. destruct (X y); auto. destruct (G y); auto. split; auto. Qed.
Lemma near_same X G H : same H G -> near X G H.
Proof. intros S y. rewrite S. apply near_refl. Qed.
Lemma near_trans X G H K : near X G H -> near X H K -> near X G K.
Proof.
  clear E el fails junk. intros N1 N2 y. specialize (N1 y). specialize (N2 y). destruct (X y); [|congruence].
  destruct (G y), (H y), (K y); auto; try contradiction. unfold same_shape in *. intuition congruence.
Qed.
Lemma near_mono (X Y : nat -> bool) G H : (forall y, X y = true -> Y y = true) -> near X G H -> near Y G H.
Proof.
  intros M N y. specialize (N y). specialize (M y). destruct (X y).
  - rewrite M by reflexivity. exact N.
  - rewrite N. apply near_refl.
Qed.
Lemma tri_set G x i j v : tri G (Set_ x i j v) (fun _ H => near (only x) G H) (fun _ => False) (fun H => el = true /\ near (only x) G H).
Proof.
  intros s n Hs.
  assert (P : forall v, match hrun E (Set_ x i j v) s with (s', Ok _) => exists H, holds s' H /\ near (only x) G H | (_, Throw _) => False | _ => True end).
  { intros a. destruct (G x) as [m|] eqn:Gx.
    - pose proof (store_ok E s G x m i j a Hs Gx) as R. unfold set_entry in R. destruct (_ <? _); cbn [done] in R; [|rewrite R; exact I].
      destruct R as (s' & -> & Hh). eexists. split; [exact Hh|]. intros y. unfold only, upd. destruct (Nat.eqb_spec y x) as [->|]; [|reflexivity].
      rewrite Gx. unfold same_shape. cbn [rows cols data]. rewrite replace_len. auto.
    - cbn [hrun]. unfold store. destruct Hs as [O V]. rewrite <- V in Gx. apply no_value in Gx; auto. rewrite Gx. exact I. }
  split.
  - specialize (P v). destruct (hrun E (Set_ x i j v) s) as [s' [u|e| | |]]; auto. contradiction.
  - cbn [arun]. pose proof (P (junk n)) as P1. cbn [hrun] in *. destruct el; [destruct (fails n)|]; try (destruct (store s x _ v); reflexivity).
    assert (Q : forall a b, snd (store s x (fun o => i * ocols o + j) a) = snd (store s x (fun o => i * ocols o + j) b) /\ (snd (store s x (fun o => i * ocols o + j) a) <> Ok tt -> store s x (fun o => i * ocols o + j) a = store s x (fun o => i * ocols o + j) b)).
    { intros a b. unfold store. destruct (live (objs s) x); [|auto]. destruct (live (arrays s) _); [|auto]. destruct (_ <? _); cbn [snd]; [split; [reflexivity|congruence]|auto]. }
    destruct (Q (junk n) v) as [_ Q2]. destruct (store s x _ (junk n)) as [s' [[]|e| | |]]; cbn [fst snd] in *; try (rewrite Q2 by discriminate; reflexivity); try contradiction.
    destruct P1 as (H & H1 & H2). exists H. auto.
Qed.

(** a statement, or an expression (X is empty), that makes no object *)
Definition st (X : nat -> bool) {A} (p : prog T A) : Prop := forall G, tri G p (fun _ H => near X G H) (fun H => near X G H) (fun H => el = true /\ near X G H).
(** one that throws nothing *)
Definition st0 (X : nat -> bool) {A} (p : prog T A) : Prop := forall G, tri G p (fun _ H => near X G H) (fun _ => False) (fun H => el = true /\ near X G H).
Lemma st0_st X {A} (p : prog T A) : st0 X p -> st X p.
Proof. intros P G. eapply tri_weaken; [apply P|..]; auto. contradiction. Qed.
Lemma st_bind X {A B} (p : prog T A) (k : A -> prog T B) : st X p -> (forall a, st X (k a)) -> st X (Bind p k).
Proof.
  intros P K G. eapply tri_bind; [apply P|]. cbn beta. intros a H N. eapply tri_weaken; [apply K|..]; cbn beta; intros; intuition eauto using near_trans.
Qed.
Lemma st0_bind X {A B} (p : prog T A) (k : A -> prog T B) : st0 X p -> (forall a, st0 X (k a)) -> st0 X (Bind p k).
Proof.
  intros P K G. eapply tri_bind; [apply P|]. cbn beta. intros a H N. eapply tri_weaken; [apply K|..]; cbn beta; intros; intuition eauto using near_trans.
Qed.
Lemma st_ret X {A} (m : res A) : st X (Ret m).
Proof. intros G. apply tri_ret; intros; auto using near_refl. Qed.
Lemma st0_ret X {A} (a : A) : st0 X (Ret (Ok a)).
Proof. intros G. apply tri_ret; intros; auto using near_refl. discriminate. Qed.
Lemma st0_read X (l : list (option T)) k : st0 X (Ret (read l k)).
Proof. intros G. apply tri_ret; intros; auto using near_refl. exact (read_no_throw l k e H). Qed.
Lemma st0_get X x i j : st0 X (Get x i j).
Proof. intros G. eapply tri_weaken; [apply tri_get|..]; cbn beta; intros; try contradiction; intuition auto using near_same. Qed.
Lemma st0_data X x k : st0 X (Data x k).
Proof. intros G. eapply tri_weaken; [apply tri_data|..]; cbn beta; intros; try contradiction; intuition auto using near_same. Qed.
Lemma st0_dims X x : st0 X (Dims x).
Proof. intros G. eapply tri_weaken; [apply tri_dims_any|..]; cbn beta; intros; try contradiction. auto using near_same. Qed.
Lemma st0_set (X : nat -> bool) x i j v : X x = true -> st0 X (Set_ x i j v).
Proof.
  intros Hx G. assert (M : forall y, only x y = true -> X y = true) by (intros y; unfold only; intros K; apply Nat.eqb_eq in K; congruence).
  eapply tri_weaken; [apply tri_set|..]; cbn beta; intros; try contradiction; intuition eauto using near_mono.
Qed.
Lemma st_get X x i j : st X (Get x i j). Proof. apply st0_st, st0_get. Qed.
Lemma st_data X x k : st X (Data x k). Proof. apply st0_st, st0_data. Qed.
Lemma st_dims X x : st X (Dims x). Proof. apply st0_st, st0_dims. Qed.
Lemma st_set (X : nat -> bool) x i j v : X x = true -> st X (Set_ x i j v). Proof. intros. apply st0_st, st0_set; auto. Qed.
Lemma st_for X n : forall a body, (forall i, st X (body i)) -> st X (pfor n a body).
Proof. induction n as [|n IH]; intros a body K; cbn [pfor]; [apply st_ret|]. apply st_bind; auto. Qed.
Lemma st0_for X n : forall a body, (forall i, st0 X (body i)) -> st0 X (pfor n a body).
Proof. induction n as [|n IH]; intros a body K; cbn [pfor]; [apply st0_ret|]. apply st0_bind; auto. Qed.
Lemma st_fold X {S} n : forall a (body : nat -> S -> prog T S) s, (forall i s, st X (body i s)) -> st X (pfold n a body s).
Proof. induction n as [|n IH]; intros a body s K; cbn [pfold]; [apply st_ret|]. apply st_bind; auto. Qed.
Lemma st_all X n : forall a p, (forall i, st X (p i)) -> st X (pall n a p).
Proof. induction n as [|n IH]; intros a p K; cbn [pall]; [apply st_ret|]. apply st_bind; auto. intros []; [apply IH; auto|apply st_ret]. Qed.
Ltac step := match goal with
  | |- st _ (Bind _ _) => apply st_bind; [|intros ?]
  | |- st _ (Ret _) => apply st_ret
  | |- st _ (Get _ _ _) => apply st_get
  | |- st _ (Data _ _) => apply st_data
  | |- st _ (Dims _) => apply st_dims
  | |- st _ (Set_ _ _ _ _) => apply st_set; auto
  | |- st _ (pfor _ _ _) => apply st_for; intros ?
  | |- st _ (pfor_to _ _ _) => unfold pfor_to
  | |- st _ (pfor2 _ _ _) => unfold pfor2
  | |- st _ (pfill _ _ _ _) => unfold pfill
  | |- st _ (pfold _ _ _ _) => apply st_fold; intros ? ?
  | |- st _ (pall _ _ _) => apply st_all; intros ?
  | |- st _ (if ?b then _ else _) => destruct b
  | |- st _ (match ?b with _ => _ end) => destruct b
  end.
Ltac steps := repeat step.
Lemma st_assign_entry (X : nat -> bool) op x i j y : X x = true -> st X (h_assign_entry op x i j y).
Proof. intros H. unfold h_assign_entry. steps. Qed.
Lemma st_mat_assign op a b : st (only a) (h_mat_assign op a b).
Proof. unfold h_mat_assign. steps. apply st_assign_entry. apply Nat.eqb_refl. Qed.
Lemma st_scale_assign op x k : st (only x) (h_scale_assign op x k).
Proof. unfold h_scale_assign. steps; apply st_assign_entry; apply Nat.eqb_refl. Qed.
Lemma st_product_into (X : nat -> bool) a b x ra ca cb : X x = true -> st X (h_product_into E a b x ra ca cb).
Proof. intros H. unfold h_product_into. steps. apply st_assign_entry. exact H. Qed.
Lemma st_eq a b : st none (h_eq E a b).
Proof. unfold h_eq. steps. Qed.
Lemma st_ne a b : st none (h_ne E a b).
Proof. unfold h_ne. steps. apply st_eq. Qed.
Lemma st_setEntries (X : nat -> bool) x src size : X x = true -> (forall k, st X (src k)) -> st X (h_setEntries x src size).
Proof. intros H K. unfold h_setEntries. steps. apply K. Qed.
Lemma st_setEntries_val (X : nat -> bool) x v : X x = true -> st X (h_setEntries_val x v).
Proof. intros H. unfold h_setEntries_val. steps. Qed.
Lemma st_swap_rows (X : nat -> bool) x a b : X x = true -> st X (h_swap_rows x a b).
Proof. intros H. unfold h_swap_rows. steps. Qed.
Lemma st_find_pivot X f : forall x r i p, st X (h_find_pivot E f x r i p).
Proof. induction f as [|f IH]; intros x r i p; cbn [h_find_pivot]; steps; apply IH. Qed.
Lemma st_det_rows (X : nat -> bool) x : X x = true -> forall n r factor pivot, st X (h_det_rows E n r x factor pivot).
Proof.
  intros H. induction n as [|n IH]; intros r factor pivot; cbn [h_det_rows]; steps; try apply st_find_pivot; try apply st_swap_rows; auto.
  unfold h_det_clear. steps. apply st_assign_entry; auto.
Qed.
Lemma st_rref_rows (X : nat -> bool) x : X x = true -> forall n r pivot, st X (h_rref_rows E n r pivot x).
Proof.
  intros H. induction n as [|n IH]; intros r pivot; cbn [h_rref_rows]; steps; try apply st_find_pivot; try apply st_swap_rows; try apply st_assign_entry; auto.
  unfold h_rref_clear. steps. apply st_assign_entry; auto.
Qed.
Lemma st_inplace_rref (X : nat -> bool) x : X x = true -> st X (h_inplace_rref E x).
Proof. intros H. unfold h_inplace_rref. steps. apply st_rref_rows; auto. Qed.
Lemma st_trace x : st none (h_trace E x).
Proof. unfold h_trace. steps. Qed.
Lemma st_det2 X x : st X (h_det2 E x).
Proof. unfold h_det2. steps. Qed.

(** *** Objects that are made *)
(** what is left when memory runs out: as before; or, when elements allocate, entries of X
    changed, and, if [lk], an object that nobody knows *)
Definition left (lk : bool) (X : nat -> bool) (G H : env) : Prop := same H G \/ (el = true /\ exists G', near X G G' /\ (same H G' \/ exists z w, lk = true /\ G z = None /\ same H (upd G' z (Some w)))).
Definition mk (lk : bool) (X : nat -> bool) (G : env) (p : prog T nat) : Prop :=
  tri G p (fun y H => G y = None /\ exists w G', near X G G' /\ same H (upd G' y (Some w))) (fun H => near X G H) (left lk X G).
(** an expression that may use local objects *)
Definition ex (lk : bool) (G : env) {A} (p : prog T A) : Prop := tri G p (fun _ H => same H G) (fun H => same H G) (left lk none G).
Lemma near_none G H : near none G H -> same H G.
Proof. intros N y. exact (N y). Qed.
Lemma st_ex lk {A} (p : prog T A) : st none p -> forall G, ex lk G p.
Proof.
  intros P G. eapply tri_weaken; [apply P|..]; cbn beta; intros; auto using near_none. destruct H0 as [H1 H2]. left. auto using near_none.
Qed.
Lemma ex_bind lk {A B} G (p : prog T A) (k : A -> prog T B) : ex lk G p -> (forall a, ex lk G (k a)) -> ex lk G (Bind p k).
Proof.
  intros P K. eapply tri_bind; [apply P|]. cbn beta. intros a H S. apply (tri_same G); [intros y; symmetry; apply S|]. apply K.
Qed.
Lemma mk_same lk X G H p : same G H -> mk lk X G p -> mk lk X H p.
Proof.
  intros S P. apply (tri_same G _ _ _ _ _ S).
  assert (N : forall K, near X G K -> near X H K) by (intros K N; eapply near_trans; [|exact N]; apply near_same; exact S).
  eapply tri_weaken; [exact P|..]; cbn beta.
  - intros y K (Gy & w & G' & N1 & S1). rewrite <- S. split; [exact Gy|]. exists w, G'. auto.
  - auto.
  - intros K [S1|(L & G' & N1 & Hk)]; [left; eapply same_trans; eauto|right]. split; [exact L|]. exists G'. split; [auto|]. destruct Hk as [S1|(z & w & Lz & Gz & S1)]; [auto|right].
    exists z, w. rewrite <- S. auto.
Qed.
Lemma mk_dims lk X G x (k : nat * nat -> prog T nat) : (forall a, (forall v, G x = Some v -> a = (rows v, cols v)) -> mk lk X G (k a)) -> mk lk X G (Bind (Dims x) k).
Proof.
  intros K. destruct (G x) as [v|] eqn:Gx.
  - eapply tri_bind; [eapply tri_weaken; [apply (tri_dims G x v Gx)|..]; cbn beta; try contradiction; intros a H Q; exact Q|]. cbn beta. intros a H [-> S].
    apply (tri_same G); [intros y; symmetry; apply S|]. apply K. intros v' [= <-]. reflexivity.
  - eapply tri_bind; [eapply tri_weaken; [apply (tri_dims_any G x)|..]; cbn beta; try contradiction; intros a H Q; exact Q|]. cbn beta. intros a H S.
    apply (tri_same G); [intros y; symmetry; apply S|]. apply K. discriminate.
Qed.
Lemma mk_throw lk X G m : (forall x, m <> Ok x) -> mk lk X G (Ret m).
Proof. intros N. apply tri_ret; intros; [destruct (N a H)|apply near_refl|left; apply same_refl]. Qed.
Lemma near_at X (G H : env) y v : near X G H -> G y = Some v -> exists w, H y = Some w.
Proof. intros N Gy. specialize (N y). rewrite Gy in N. destruct (X y); [destruct (H y); eauto; contradiction|eauto]. Qed.
(** after changing X and x, x is destroyed *)
Lemma near_gone (X : nat -> bool) G x w H : G x = None -> near (fun y => X y || only x y) (upd G x (Some w)) H -> near X G (upd H x None).
Proof.
  intros Gx N y. specialize (N y). unfold only, upd in *. destruct (Nat.eqb_spec y x) as [Ey|].
  - rewrite Ey, Gx. destruct (X x); auto.
  - rewrite Bool.orb_false_r in N. exact N.
Qed.
Lemma near_kept (X : nat -> bool) G x w H : G x = None -> near (fun y => X y || only x y) (upd G x (Some w)) H -> exists w' G', near X G G' /\ same H (upd G' x (Some w')) /\ same_shape w w'.
Proof.
  intros Gx N. assert (Hx : exists w', H x = Some w' /\ same_shape w w').
  { specialize (N x). unfold only in N. rewrite Nat.eqb_refl, Bool.orb_true_r, upd_same in N. destruct (H x); [eauto|contradiction]. }
  destruct Hx as (w' & Hx & Sh). exists w', (upd H x None). split; [eapply near_gone; eassumption|]. split; [|exact Sh].
  intros y. unfold upd. destruct (Nat.eqb_spec y x) as [->|]; auto.
Qed.
Lemma mk_ctor G r c (body : nat -> prog T unit) : (forall x, G x = None -> tri (upd G x (Some (Mat_new E r c))) (body x) (fun _ H => near (only x) (upd G x (Some (Mat_new E r c))) H) (fun _ => False) (fun H => el = true /\ near (only x) (upd G x (Some (Mat_new E r c))) H)) ->
  mk true none G (x <~ New r c ;; _ <~ body x ;; Ret (Ok x)).
Proof.
  intros P. eapply tri_bind; [eapply tri_weaken; [apply tri_new|..]; cbn beta; [intros x H Q; exact Q|contradiction|intros H S; left; exact S]|]. cbn beta. intros x H [Gx S].
  apply (tri_same (upd G x (Some (Mat_new E r c)))); [intros y; symmetry; apply S|].
  assert (L : forall H, near (only x) (upd G x (Some (Mat_new E r c))) H -> exists w' G', near none G G' /\ same H (upd G' x (Some w'))).
  { intros K N. destruct (near_kept none G x (Mat_new E r c) K Gx) as (w & G' & N1 & S1 & _); [exact N|eauto]. }
  eapply tri_bind; [eapply tri_weaken; [apply (P x Gx)|..]; cbn beta; [intros a K Q; exact Q|contradiction|]|].
  - intros K [L1 N]. right. split; [exact L1|]. destruct (L K N) as (w & G' & N1 & S1). exists G'. split; [exact N1|]. right. exists x, w. auto.
  - cbn beta. intros a K N. destruct (L K N) as (w & G' & N1 & S1). apply tri_ret.
    + intros y [= <-]. split; [exact Gx|]. exists w, G'. auto.
    + discriminate.
    + intros L1. right. split; [exact L1|]. exists G'. split; [exact N1|]. right. exists x, w. auto.
Qed.
Lemma tri_keep_body lk (X : nat -> bool) G x w (body : prog T unit) : G x = None -> st (fun y => X y || only x y) body ->
  tri (upd G x (Some w)) (Scope x true (_ <~ body ;; Ret (Ok x))) (fun y H => G y = None /\ exists w G', near X G G' /\ same H (upd G' y (Some w))) (fun H => near X G H) (left lk X G).
Proof.
  intros Gx P. apply tri_scope. eapply tri_bind; [eapply tri_weaken; [apply P|..]; cbn beta; [intros a K Q; exact Q| |]|].
  - intros H N. split; [|eapply near_gone; eassumption]. destruct (near_kept X G x w H Gx N) as (w' & G' & _ & S1 & _). rewrite S1, upd_same. discriminate.
  - intros H [L N]. split; [|right; split; [exact L|]; exists (upd H x None); split; [eapply near_gone; eassumption|left; apply same_refl]].
    destruct (near_kept X G x w H Gx N) as (w' & G' & _ & S1 & _). rewrite S1, upd_same. discriminate.
  - cbn beta. intros _ H N. destruct (near_kept X G x w H Gx N) as (w' & G' & N1 & S1 & _). apply tri_ret.
    + intros y [= <-]. split; [exact Gx|]. exists w', G'. auto.
    + discriminate.
    + intros L. split; [rewrite S1, upd_same; discriminate|]. right. split; [exact L|]. exists (upd H x None). split; [eapply near_gone; eassumption|left; apply same_refl].
Qed.
Lemma mk_returning lk X G r c body : (forall x, G x = None -> st (fun y => X y || only x y) (body x)) -> mk lk X G (returning r c body).
Proof.
  intros P. eapply tri_bind; [eapply tri_weaken; [apply tri_new|..]; cbn beta; [intros x H Q; exact Q|contradiction|intros H S; left; exact S]|]. cbn beta. intros x H [Gx S].
  apply (tri_same (upd G x (Some (Mat_new E r c)))); [intros y; symmetry; apply S|]. apply tri_keep_body; auto.
Qed.
(** an object made by f that is then worked on and returned *)
Lemma mk_then lk G (f : prog T nat) (body : nat -> prog T unit) : mk lk none G f -> (forall x, G x = None -> st (only x) (body x)) -> mk lk none G (x <~ f ;; Scope x true (_ <~ body x ;; Ret (Ok x))).
Proof.
  intros P K. eapply tri_bind; [eapply tri_weaken; [apply P|..]; cbn beta; [intros x H Q; exact Q|auto|auto]|]. cbn beta. intros x H (Gx & w & G' & N & S).
  apply near_none in N. apply (tri_same (upd G x (Some w))); [intros y; rewrite S; unfold upd; destruct (y =? x); auto; symmetry; apply N|]. apply tri_keep_body; auto. apply K. exact Gx.
Qed.
(** the end of a local object *)
Lemma left_gone lk (X : nat -> bool) G x w H : G x = None -> left lk (fun y => X y || only x y) (upd G x (Some w)) H -> H x <> None /\ left lk X G (upd H x None).
Proof.
  intros Gx [S|(L & G' & N & S)].
  - split; [rewrite S, upd_same; discriminate|]. left. eapply back; [exact Gx|exact S].
  - destruct (near_kept X G x w G' Gx N) as (w' & G2 & N2 & S2 & _). destruct S as [S|(z & u & Lz & Gz & S)].
    + split; [rewrite S, S2, upd_same; discriminate|]. right. split; [exact L|]. exists (upd G' x None). split; [eapply near_gone; eassumption|]. left. apply same_upd. exact S.
    + assert (Nz : z <> x) by (intros ->; rewrite upd_same in Gz; discriminate). rewrite upd_other in Gz by exact Nz.
      split; [rewrite S, upd_other, S2, upd_same by auto; discriminate|]. right. split; [exact L|]. exists (upd G' x None). split; [eapply near_gone; eassumption|]. right. exists z, u. split; [exact Lz|]. split; [exact Gz|].
      eapply same_trans; [apply same_upd, S|]. apply upd_swap. exact Nz.
Qed.
Lemma mk_local lk X G f body : mk lk none G f -> (forall x w, G x = None -> mk lk (fun y => X y || only x y) (upd G x (Some w)) (body x)) -> mk lk X G (local f body).
Proof.
  intros P K. eapply tri_bind; [eapply tri_weaken; [apply P|..]; cbn beta; [intros x H Q; exact Q| |]|]; cbn beta.
  - intros H N. apply near_none in N. apply near_same. exact N.
  - intros H [S|(L & G' & N & S)]; [left; exact S|]. apply near_none in N. right. split; [exact L|]. exists G'. split; [apply near_same; exact N|exact S].
  - intros x H (Gx & w & G' & N & S). apply near_none in N. apply (tri_same (upd G x (Some w))); [intros y; rewrite S; unfold upd; destruct (y =? x); auto; symmetry; apply N|].
    apply tri_scope. eapply tri_weaken; [apply (K x w Gx)|..]; cbn beta.
    + intros y H1 (Gy & w1 & G1 & N1 & S1). assert (Ny : y <> x) by (intros ->; rewrite upd_same in Gy; discriminate). rewrite upd_other in Gy by exact Ny.
      destruct (near_kept X G x w G1 Gx N1) as (w' & G2 & N2 & S2 & _). split; [rewrite S1, upd_other, S2, upd_same by auto; discriminate|]. split; [exact Gy|].
      exists w1, (upd G1 x None). split; [eapply near_gone; eassumption|]. eapply same_trans; [apply same_upd, S1|]. apply upd_swap. exact Ny.
    + intros H1 N1. destruct (near_kept X G x w H1 Gx N1) as (w' & G2 & N2 & S2 & _). split; [rewrite S2, upd_same; discriminate|]. eapply near_gone; eassumption.
    + intros H1 Hl. eapply left_gone; eassumption.
Qed.
Lemma ex_local lk {A} G f (body : nat -> prog T A) : mk lk none G f ->
  (forall x w, G x = None -> tri (upd G x (Some w)) (body x) (fun _ H => near (only x) (upd G x (Some w)) H) (fun H => near (only x) (upd G x (Some w)) H) (left lk (only x) (upd G x (Some w)))) -> ex lk G (local f body).
Proof.
  intros P K. eapply tri_bind; [eapply tri_weaken; [apply P|..]; cbn beta; [intros x H Q; exact Q| |]|]; cbn beta.
  - intros H N. apply near_none in N. exact N.
  - auto.
  - intros x H (Gx & w & G' & N & S). apply near_none in N. apply (tri_same (upd G x (Some w))); [intros y; rewrite S; unfold upd; destruct (y =? x); auto; symmetry; apply N|].
    assert (D : forall H1, near (only x) (upd G x (Some w)) H1 -> H1 x <> None /\ same (upd H1 x None) G).
    { intros H1 N1. destruct (near_kept none G x w H1 Gx N1) as (w' & G2 & N2 & S2 & _). split; [rewrite S2, upd_same; discriminate|]. apply near_none. eapply near_gone; eassumption. }
    apply tri_scope. eapply tri_weaken; [apply (K x w Gx)|..]; cbn beta; auto. intros H1 Hl. apply (left_gone lk none G x w H1 Gx Hl).
Qed.
Lemma ex_local_st lk {A} G f (body : nat -> prog T A) : mk lk none G f -> (forall x, st (only x) (body x)) -> ex lk G (local f body).
Proof.
  intros P K. apply ex_local; [exact P|]. intros x w Gx. eapply tri_weaken; [apply K|..]; cbn beta; auto. intros H [L N]. right. split; [exact L|]. exists H. split; [exact N|left; apply same_refl].
Qed.
Lemma ex_local_ex lk {A} G f (body : nat -> prog T A) : mk lk none G f -> (forall x w, G x = None -> ex lk (upd G x (Some w)) (body x)) -> ex lk G (local f body).
Proof.
  intros P K. apply ex_local; [exact P|]. intros x w Gx. eapply tri_weaken; [apply (K x w Gx)|..]; cbn beta; auto using near_same.
  intros H [S|(L & G' & N & S)]; [left; exact S|right]. split; [exact L|]. exists G'. split; [apply near_same, near_none; exact N|exact S].
Qed.

(** *** The functions *)
Lemma mk_mono lk X G p : mk lk none G p -> mk lk X G p.
Proof.
  intros P. assert (M : forall H, near none G H -> near X G H) by (intros H N; apply near_same, near_none; exact N). eapply tri_weaken; [exact P|..]; cbn beta; auto.
  - intros y H (Gy & w & G' & N & S). split; [exact Gy|]. exists w, G'. auto.
  - intros H [S|(L & G' & N & S)]; [left; exact S|right]. split; [exact L|]. exists G'. auto.
Qed.
Lemma mk_if lk X G (b : bool) p q : mk lk X G p -> mk lk X G q -> mk lk X G (if b then p else q).
Proof. destruct b; auto. Qed.
Lemma here X x : (fun y => X y || only x y) x = true.
Proof. unfold only. rewrite Nat.eqb_refl. apply Bool.orb_true_r. Qed.
Lemma here1 x : only x x = true.
Proof. apply Nat.eqb_refl. Qed.
Ltac stp := steps; auto using here, here1.
Lemma tri_fill_new G x r c size (src : nat -> prog T T) : (forall X k, st0 X (src k)) -> G x = Some (Mat_new E r c) -> r * c <= size ->
  tri G (h_setEntries x src size) (fun _ H => near (only x) G H) (fun _ => False) (fun H => el = true /\ near (only x) G H).
Proof.
  intros K Gx Hs. unfold h_setEntries. eapply tri_bind; [eapply tri_weaken; [apply (tri_dims G x _ Gx)|..]; cbn beta; try contradiction; intros a H Q; exact Q|]. cbn beta. intros a H [-> S].
  apply (tri_same G); [intros y; symmetry; apply S|]. cbn [rows cols Mat_new]. destruct (Nat.ltb_spec size (r * c)); [lia|]. unfold pfill, pfor2.
  apply st0_for. intros i. apply st0_for. intros j. apply st0_bind; [apply K|]. intros v. apply st0_set, here1.
Qed.
Lemma mk_copy G x : mk true none G (h_copy x).
Proof.
  unfold h_copy. apply mk_dims. intros [r c] _. apply mk_ctor. intros y Gy. apply (tri_fill_new _ y r c); [intros; apply st0_data|apply upd_same|lia].
Qed.
Lemma mk_val G r c v : mk true none G (h_val r c v).
Proof.
  unfold h_val. apply mk_ctor. intros y Gy. unfold h_setEntries_val. generalize (upd G y (Some (Mat_new E r c))). intros H. apply st0_bind; [apply st0_dims|]. intros [r' c']. unfold pfill, pfor2.
  apply st0_for. intros i. apply st0_for. intros j. apply st0_bind; [apply st0_ret|]. intros w. apply st0_set, here1.
Qed.
Lemma mk_array G vals r c : mk true none G (h_array vals r c).
Proof. unfold h_array. apply mk_ctor. intros y Gy. apply (tri_fill_new _ y r c); [intros; apply st0_read|apply upd_same|lia]. Qed.
Lemma mk_map lk G f a : mk lk none G (h_map f a).
Proof. unfold h_map. apply mk_dims. intros [r c] _. apply mk_returning. intros x Gx. stp. Qed.
Lemma mk_binary lk G op a b : mk lk none G (h_binary op a b).
Proof.
  unfold h_binary. apply mk_dims. intros [r c] _. apply mk_dims. intros [r' c'] _. apply mk_if; [apply mk_throw; discriminate|]. apply mk_returning. intros x Gx. stp.
Qed.
Lemma mk_product G a b : mk true none G (h_product E a b).
Proof.
  unfold h_product. apply mk_dims. intros [r c] _. apply mk_dims. intros [r' c'] _. apply mk_if; [apply mk_throw; discriminate|].
  apply (mk_then true G _ (fun x => h_product_into E a b x r c c')); [apply mk_val|]. intros x Gx. apply st_product_into, here1.
Qed.
Lemma mk_first_minor lk G x i j : mk lk none G (h_first_minor x i j).
Proof.
  unfold h_first_minor. apply mk_dims. intros [r c] _. apply mk_if; [apply mk_throw; discriminate|]. apply mk_returning. intros y Gy. stp.
Qed.
Lemma mk_cofactor lk G x i j : mk lk none G (h_cofactor E x i j).
Proof. unfold h_cofactor. apply mk_if; [|apply mk_first_minor]. apply mk_local; [apply mk_first_minor|]. intros y w Gy. apply mk_mono, mk_map. Qed.
Lemma mk_rref G x : mk true none G (h_rref E x).
Proof. unfold h_rref. apply (mk_then true G _ (h_inplace_rref E)); [apply mk_copy|]. intros y Gy. apply st_inplace_rref, here1. Qed.
Lemma mk_diagonal G vals size : mk true none G (h_diagonal E vals size).
Proof.
  unfold h_diagonal. apply (mk_then true G _ (fun x => pfor size 0 (fun i => v <~ Ret (read vals i) ;; Set_ x i i v))); [apply mk_val|]. intros y Gy. stp.
Qed.
Lemma mk_identity G size : mk true none G (h_identity E size).
Proof. unfold h_identity. apply (mk_then true G _ (fun x => pfor size 0 (fun i => Set_ x i i (of_int E 1)))); [apply mk_val|]. intros y Gy. stp. Qed.
Lemma mk_augmented lk G a b : mk lk none G (h_augmented a b).
Proof.
  unfold h_augmented. apply mk_dims. intros [r c] _. apply mk_dims. intros [r' c'] _. apply mk_if; [apply mk_throw; discriminate|]. apply mk_returning. intros x Gx. stp.
Qed.
Lemma mk_inverse G m : mk true none G (h_inverse E m).
Proof.
  unfold h_inverse. apply mk_dims. intros [r c] _. apply mk_if; [apply mk_throw; discriminate|]. apply mk_local; [apply mk_identity|]. intros id w Gi.
  apply mk_local; [apply mk_augmented|]. intros x w' Gx. apply mk_returning. intros res Gr. assert (K : (fun y => ((none y || only id y) || only x y) || only res y) x = true) by (cbn beta; rewrite here1, Bool.orb_true_r; reflexivity).
  stp; [apply st_inplace_rref; exact K|]. rewrite here1. apply Bool.orb_true_r.
Qed.
Lemma mk_transpose lk G x : mk lk none G (h_transpose x).
Proof. unfold h_transpose. apply mk_dims. intros [r c] _. apply mk_returning. intros y Gy. stp. Qed.
Lemma ex_if lk {A} G (b : bool) (p q : prog T A) : ex lk G p -> ex lk G q -> ex lk G (if b then p else q).
Proof. destruct b; auto. Qed.
Lemma ex_fold lk {S} G n : forall a (body : nat -> S -> prog T S) s, (forall i s, ex lk G (body i s)) -> ex lk G (pfold n a body s).
Proof. induction n as [|n IH]; intros a body s K; cbn [pfold]; [apply st_ex, st_ret|]. apply ex_bind; auto. Qed.
Lemma ex_expansion lk rec x cs : (forall G y, ex lk G (rec y)) -> forall G, ex lk G (h_expansion E rec x cs).
Proof.
  intros K G. unfold h_expansion. apply ex_bind; [apply st_ex, st_dims|]. intros [r c].
  apply ex_if; [apply st_ex, st_ret|]. apply ex_if; [apply st_ex, st_data|]. apply ex_if; [apply st_ex, st_det2|].
  apply ex_fold. intros k result. apply ex_bind; [destruct cs; apply st_ex, st_get|]. intros v. apply ex_bind; [apply st_ex, st_ret|]. intros z.
  apply ex_if; [apply st_ex, st_ret|]. apply ex_local_ex; [destruct cs; apply mk_first_minor|]. intros y w Gy. apply ex_bind; [apply K|]. intros d. apply st_ex. stp.
Qed.
Lemma ex_cofactor_expansion lk f cs : forall x G, ex lk G (h_cofactor_expansion E f cs x).
Proof. induction f as [|f IH]; intros x G; cbn [h_cofactor_expansion]; [apply st_ex, st_ret|]. apply ex_expansion. intros H y. apply IH. Qed.
Lemma ex_row lk G x : ex lk G (h_row_expansion E x).
Proof. unfold h_row_expansion. apply ex_bind; [apply st_ex, st_dims|]. intros [r c]. apply ex_cofactor_expansion. Qed.
Lemma ex_col lk G x : ex lk G (h_col_expansion E x).
Proof. unfold h_col_expansion. apply ex_bind; [apply st_ex, st_dims|]. intros [r c]. apply ex_cofactor_expansion. Qed.
Lemma ex_determinant G x : ex true G (h_determinant E x).
Proof.
  unfold h_determinant. apply ex_bind; [apply st_ex, st_dims|]. intros [r c].
  apply ex_if; [apply st_ex, st_ret|]. apply ex_if; [apply st_ex, st_data|]. apply ex_if; [apply st_ex, st_det2|].
  apply ex_local_st; [apply mk_copy|]. intros y. stp. apply st_det_rows, here1.
Qed.
Lemma ex_print G pr o x : ex true G (h_print pr o x).
Proof. unfold h_print. apply ex_local_st; [apply mk_copy|]. intros y. stp. Qed.
(** assignments *)
Definition act (lk : bool) (G : env) (p : prog T unit) : Prop := tri G p (fun _ _ => True) (fun _ => True) (left lk none G).
Lemma act_dims lk G x (k : nat * nat -> prog T unit) : (forall a, act lk G (k a)) -> act lk G (Bind (Dims x) k).
Proof.
  intros K. eapply tri_bind; [eapply tri_weaken; [apply (tri_dims_any G x)|..]; cbn beta; try contradiction; intros a H Q; exact Q|]. cbn beta. intros a H S.
  apply (tri_same G); [intros y; symmetry; apply S|]. apply K.
Qed.
Lemma act_local lk G f (body : nat -> prog T unit) a : mk lk none G f -> (forall x, st (only x) (body x)) -> act lk G (local f (fun x => _ <~ body x ;; Swap a x)).
Proof.
  intros P K. eapply tri_bind; [eapply tri_weaken; [apply P|..]; cbn beta; [intros x H Q; exact Q|auto|auto]|]; cbn beta.
  intros x H (Gx & w & G' & N & S). apply near_none in N. apply (tri_same (upd G x (Some w))); [intros y; rewrite S; unfold upd; destruct (y =? x); auto; symmetry; apply N|].
  assert (D : forall H1, near (only x) (upd G x (Some w)) H1 -> H1 x <> None /\ same (upd H1 x None) G).
  { intros H1 N1. destruct (near_kept none G x w H1 Gx N1) as (w' & G2 & N2 & S2 & _). split; [rewrite S2, upd_same; discriminate|]. apply near_none. eapply near_gone; eassumption. }
  apply tri_scope. eapply tri_bind; [eapply tri_weaken; [apply K|..]; cbn beta; [intros u H1 Q; exact Q| |]|]; cbn beta.
  - intros H1 N1. split; [apply (D H1 N1)|exact I].
  - intros H1 [L N1]. destruct (D H1 N1). split; [assumption|left; assumption].
  - intros _ H1 N1. eapply tri_weaken; [apply tri_swap|..]; cbn beta; try contradiction. intros _ H2 (v & u & _ & _ & S2). rewrite S2, upd_same. split; [discriminate|exact I].
Qed.
Lemma act_assign G this a : act true G (h_assign this a).
Proof.
  unfold h_assign, local. eapply tri_bind; [eapply tri_weaken; [apply mk_copy|..]; cbn beta; [intros x H Q; exact Q|auto|auto]|]; cbn beta.
  intros x H (Gx & w & G' & N & S). apply tri_scope. eapply tri_weaken; [apply tri_swap|..]; cbn beta; try contradiction. intros _ H2 (v & u & _ & _ & S2). rewrite S2, upd_same. split; [discriminate|exact I].
Qed.
Lemma act_product_assign G a b : act true G (h_product_assign E a b).
Proof.
  unfold h_product_assign. apply act_dims. intros [r c]. apply act_dims. intros [r' c']. destruct (negb _); [apply tri_ret; auto; intros; left; apply same_refl|].
  apply (act_local true G _ (fun x => h_product_into E a b x r c c')); [apply mk_val|]. intros x. apply st_product_into, here1.
Qed.
(** *** What the caller sees *)
Definition ends {A} (X : nat -> bool) (leaks : bool) (s : mem) (p : prog T A) : Prop := forall n, match run p s n with
  | (s', _, Fin m) => hrun E p s = (s', m)
  | (s', _, NoMem) => kept X leaks s s'
  end.
Lemma owned_holds (s : mem) : owned s -> holds s (value s).
Proof. intros O. split; [exact O|reflexivity]. Qed.
Lemma kept_near X (s s' : mem) H b : holds s' H -> near X (value s) H -> kept X b s s'.
Proof.
  intros [O V] N. split; [exact O|]. split.
  - intros y v Hy. specialize (N y). rewrite Hy, <- V in N. destruct (X y); [|eauto]. destruct (value s' y); [eauto|contradiction].
  - exists 0. intros y Hy K. specialize (N y). rewrite Hy, <- V in N. destruct (X y), (value s' y); congruence || contradiction.
Qed.
Lemma kept_near_lost X (s s' : mem) G' H z w : holds s' H -> near X (value s) G' -> value s z = None -> same H (upd G' z (Some w)) -> kept X true s s'.
Proof.
  intros [O V] N Hz S. split; [exact O|]. split.
  - intros y v Hy. assert (y <> z) by congruence. specialize (N y). rewrite Hy in N. rewrite V, S, upd_other by assumption. destruct (X y); [|eauto]. destruct (G' y); [eauto|contradiction].
  - exists z. intros y Hy K. split; [reflexivity|]. destruct (Nat.eq_dec y z); [assumption|]. exfalso. rewrite V, S, upd_other in K by assumption.
    specialize (N y). rewrite Hy in N. destruct (X y), (G' y); congruence || contradiction.
Qed.
Lemma ends_left lk {A} (s : mem) (p : prog T A) QO QT : owned s -> tri (value s) p QO QT (left lk none (value s)) -> ends none (el && lk) s p.
Proof.
  intros O P n. destruct (P s n (owned_holds s O)) as [_ P2]. destruct (run p s n) as [[s' n'] [m|]]; [exact P2|]. destruct P2 as (H & Hh & [S|(L & G' & N & [S|(z & w & Lz & Hz & S)])]).
  - eapply kept_near; [exact Hh|]. apply near_same. exact S.
  - eapply kept_near; [exact Hh|]. eapply near_trans; [exact N|apply near_same; exact S].
  - rewrite L, Lz. eapply kept_near_lost; eassumption.
Qed.
Lemma ends_st {A} X (s : mem) (p : prog T A) : owned s -> st X p -> ends X false s p.
Proof.
  intros O P n. destruct (P (value s) s n (owned_holds s O)) as [_ P2]. destruct (run p s n) as [[s' n'] [m|]]; [exact P2|]. destruct P2 as (H & Hh & _ & N). eapply kept_near; eassumption.
Qed.
(** statements that make no object need memory only for elements *)
Lemma st_enough {A} X (s : mem) (p : prog T A) n : owned s -> st X p -> el = false -> run p s n = (fst (hrun E p s), snd (fst (run p s n)), Fin (snd (hrun E p s))).
Proof.
  intros O P L. destruct (P (value s) s n (owned_holds s O)) as [_ P2]. destruct (run p s n) as [[s' n'] [m|]]; [rewrite P2; reflexivity|]. destruct P2 as (H & _ & L' & _). congruence.
Qed.
End Alloc.

(** *** A sufficient store *)
Lemma arun_enough {T A} (E : ops T) el junk (p : prog T A) : forall s n,
  let '(s', _, e) := arun E el (fun _ => false) junk p s n in hrun E p s = (s', match e with Fin m => m | NoMem => UB end) /\ e <> NoMem.
Proof.
  induction p as [A m|A B p IHp k IHk|A x keep p IHp|r c|x|x i j|x k|x i j v|x|x y]; intros s n; cbn [arun hrun]; unfold with_element;
    try (split; [|discriminate]).
  - destruct el; split; (reflexivity || discriminate).
  - specialize (IHp s n). destruct (arun E el _ junk p s n) as [[s1 n1] [m|]]; [|destruct IHp; congruence]. destruct IHp as [-> _]. destruct m as [a|e| | |]; cbn [bind]; try (split; [reflexivity|discriminate]). apply IHk.
  - specialize (IHp s n). destruct (arun E el _ junk p s n) as [[s1 n1] [m|]]; [|destruct IHp; congruence]. destruct IHp as [-> _]. destruct m as [a|e| | |]; try (split; [reflexivity|discriminate]).
    + destruct keep; [split; [reflexivity|discriminate]|]. destruct (destroy s1 x). split; [reflexivity|discriminate].
    + destruct (destroy s1 x). split; [reflexivity|discriminate].
  - cbn. reflexivity.
  - destruct (destroy s x); reflexivity.
  - destruct el; split; (reflexivity || discriminate).
  - destruct el; split; (reflexivity || discriminate).
  - destruct el; split; try discriminate; destruct (store s x _ v); reflexivity.
  - reflexivity.
  - destruct (live (objs s) x), (live (objs s) y); reflexivity.
Qed.

(** *** Every program keeps the memory in order *)
Lemma arun_owned {T A} (E : ops T) el fails junk (p : prog T A) : forall s n, owned s -> owned (fst (fst (arun E el fails junk p s n))).
Proof.
  induction p as [A m|A B p IHp k IHk|A x keep p IHp|r c|x|x i j|x k|x i j v|x|x y]; intros s n O; cbn [arun]; unfold with_element.
  - destruct el; exact O.
  - specialize (IHp s n O). destruct (arun E el fails junk p s n) as [[s1 n1] [[a|e| | |]|]]; cbn [fst] in *; auto.
  - specialize (IHp s n O). destruct (arun E el fails junk p s n) as [[s1 n1] [[a|e| | |]|]]; cbn [fst] in *; auto.
    + destruct keep; [exact IHp|]. pose proof (destroy_owned s1 x IHp) as D. destruct (destroy s1 x). exact D.
    + pose proof (destroy_owned s1 x IHp) as D. destruct (destroy s1 x). exact D.
    + pose proof (destroy_owned s1 x IHp) as D. unfold unwind. destruct (destroy s1 x). exact D.
  - destruct (fails n); [exact O|]. exact (run_owned E (New r c) s O).
  - exact (run_owned E (Del x) s O).
  - destruct el; exact O.
  - destruct el; exact O.
  - destruct el; [destruct (fails n)|]; [exact (run_owned E (Set_ x i j (junk n)) s O)|exact (run_owned E (Set_ x i j v) s O)..].
  - exact O.
  - exact (run_owned E (Swap x y) s O).
Qed.
