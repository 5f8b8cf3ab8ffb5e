(** Proofs about Mat with limited memory (SpaceModel.v). *)
From Coq Require Import Ascii.
From Verif Require Import Base IntModel IOModel ElemModel ElemSpec ElemProofs VecModel MatModel MatSpec MatProofs HeapModel HeapSpec HeapProofs AllocModel AllocSpec AllocProofs SpaceModel SpaceSpec.
Local Open Scope list_scope.
Local Open Scope nat_scope.

(** *** Elements in use *)
Lemma sum_replace {A} (f : A -> nat) l j a b : nth_error l j = Some b -> list_sum (map f (replace l j a)) + f b = list_sum (map f l) + f a.
Proof.
  revert j. induction l as [|x l IH]; intros [|j] H; cbn in *; try discriminate; [injection H as ->; lia|]. specialize (IH j H). unfold list_sum in IH. lia.
Qed.
Lemma used_new {T} (E : ops T) s r c : used (fst (hrun E (New r c) s)) = used s + r * c.
Proof. cbn [hrun new_array fst arrays objs]. unfold used. cbn [arrays]. rewrite map_app, list_sum_app. cbn. rewrite repeat_length. lia. Qed.
Lemma live_nth {A} (l : list (option A)) k a : live l k = Some a -> nth_error l k = Some (Some a).
Proof. unfold live. destruct (nth_error l k); congruence. Qed.
Lemma used_destroy {T} (s : memory T) x v : value s x = Some v -> used (fst (destroy s x)) + length (data v) = used s.
Proof.
  unfold value, destroy. destruct (live (objs s) x) as [o|]; [|discriminate]. destruct (live (arrays s) (odata o)) as [a|] eqn:Ea; [|discriminate]. intros [= <-]. cbn [fst data]. unfold used. cbn [arrays].
  apply live_nth in Ea. pose proof (sum_replace (fun o => match o with Some a => length a | None => 0 end) (arrays s) (odata o) None (Some a) Ea) as H. cbn beta iota in H. lia.
Qed.
Lemma used_destroy_le {T} (s : memory T) x : used (fst (destroy s x)) <= used s.
Proof.
  destruct (value s x) as [v|] eqn:Ev; [pose proof (used_destroy s x v Ev); lia|]. unfold value, destroy in *. destruct (live (objs s) x) as [o|]; [|reflexivity]. destruct (live (arrays s) (odata o)) as [a|]; [discriminate|reflexivity].
Qed.
Lemma used_store {T} (s : memory T) x k v : used (fst (store s x k v)) = used s.
Proof.
  unfold store. destruct (live (objs s) x) as [o|]; [|reflexivity]. destruct (live (arrays s) (odata o)) as [a|] eqn:Ea; [|reflexivity]. destruct (_ <? _); [|reflexivity]. cbn [fst]. unfold used. cbn [arrays].
  apply live_nth in Ea. pose proof (sum_replace (fun o => match o with Some a => length a | None => 0 end) (arrays s) (odata o) (Some (replace a (k o) (Some v))) (Some a) Ea) as H. cbn beta iota in H. rewrite replace_len in H. lia.
Qed.
Lemma used_swap {T} (E : ops T) s x y : used (fst (hrun E (Swap x y) s)) = used s.
Proof. cbn [hrun]. destruct (live (objs s) x), (live (objs s) y); reflexivity. Qed.

Section Space.
Context {T : Type} (E : ops T).
Local Notation mem := (memory T).
Local Notation env := (nat -> option (Mat T)).
(** *** The limit is kept, and runs that end well are runs with unlimited memory *)
Lemma lrun_used {A} L (p : prog T A) : forall s, used s <= L -> used (fst (lrun E L p s)) <= L.
Proof.
  induction p as [A m|A B p IHp k IHk|A x keep p IHp|r c|x|x i j|x k|x i j v|x|x y]; intros s U.
  - exact U.
  - cbn [lrun]. specialize (IHp s U). destruct (lrun E L p s) as [s1 [[a|e| | |]|]]; cbn [fst] in *; auto.
  - cbn [lrun]. specialize (IHp s U). destruct (lrun E L p s) as [s1 [[a|e| | |]|]]; cbn [fst] in *; auto.
    + destruct keep; [exact IHp|]. pose proof (used_destroy_le s1 x). destruct (destroy s1 x). cbn [fst] in *. lia.
    + pose proof (used_destroy_le s1 x). destruct (destroy s1 x). cbn [fst] in *. lia.
    + unfold unwind. pose proof (used_destroy_le s1 x). destruct (destroy s1 x). cbn [fst] in *. lia.
  - cbn [lrun]. destruct (Nat.ltb_spec L (used s + r * c)); [exact U|]. pose proof (used_new E s r c). destruct (hrun E (New r c) s). cbn [fst] in *. lia.
  - cbn [lrun hrun]. pose proof (used_destroy_le s x). destruct (destroy s x). cbn [fst] in *. lia.
  - exact U.
  - exact U.
  - cbn [lrun hrun]. pose proof (used_store s x (fun o => i * ocols o + j) v). destruct (store s x _ v). cbn [fst] in *. lia.
  - exact U.
  - cbn [lrun]. pose proof (used_swap E s x y). destruct (hrun E (Swap x y) s). cbn [fst] in *. lia.
Qed.
(** a run with a limit is a run in which some request fails *)
Definition stops {A} (e : ending A) : Prop := match e with Fin (Ok _) | Fin (Throw _) => False | _ => True end.
Lemma lrun_arun {A} L junk (p : prog T A) : forall s n, exists n' (b : bool), n <= n' /\ (b = true -> stops (snd (lrun E L p s))) /\
  forall fails, (forall k, n <= k < n' -> fails k = false) -> (b = true -> fails n' = true) ->
    arun E false fails junk p s n = (fst (lrun E L p s), if b then S n' else n', snd (lrun E L p s)).
Proof.
  induction p as [A m|A B p IHp k IHk|A x keep p IHp|r c|x|x i j|x k|x i j v|x|x y]; intros s n.
  - exists n, false. split; [lia|]. split; [discriminate|]. intros. reflexivity.
  - destruct (IHp s n) as (n1 & b1 & L1 & B1 & R1). cbn [lrun arun]. destruct (lrun E L p s) as [s1 e1]. cbn [fst snd] in *. destruct b1.
    + exists n1, true. split; [exact L1|]. specialize (B1 eq_refl). split; [intros _; destruct e1 as [[| | | |]|]; try contradiction; exact I|].
      intros fails F1 F2. rewrite (R1 fails F1 F2). destruct e1 as [[| | | |]|]; try contradiction; reflexivity.
    + destruct e1 as [[a|e| | |]|]; try (exists n1, false; split; [exact L1|]; split; [discriminate|]; intros fails F1 F2; rewrite (R1 fails F1 F2); reflexivity).
      destruct (IHk a s1 n1) as (n2 & b2 & L2 & B2 & R2). exists n2, b2. split; [lia|]. split; [exact B2|]. intros fails F1 F2.
      rewrite (R1 fails); [|intros; apply F1; lia|discriminate]. apply R2; [intros; apply F1; lia|exact F2].
  - destruct (IHp s n) as (n1 & b1 & L1 & B1 & R1). cbn [lrun arun]. destruct (lrun E L p s) as [s1 e1]. cbn [fst snd] in *. exists n1, b1. split; [exact L1|]. split.
    + intros ->. specialize (B1 eq_refl). destruct e1 as [[a|e| | |]|]; try contradiction; cbn [snd]; try exact I. unfold unwind. destruct (destroy s1 x) as [s2 [u|e| | |]]; exact I.
    + intros fails F1 F2. rewrite (R1 fails F1 F2). destruct e1 as [[a|e| | |]|]; try reflexivity.
      * destruct keep; [reflexivity|]. destruct (destroy s1 x). reflexivity.
      * destruct (destroy s1 x). reflexivity.
      * unfold unwind. destruct (destroy s1 x). reflexivity.
  - cbn [lrun arun]. destruct (Nat.ltb_spec L (used s + r * c)).
    + exists n, true. split; [lia|]. split; [intros _; exact I|]. intros fails F1 F2. rewrite F2 by reflexivity. reflexivity.
    + exists (S n), false. split; [lia|]. split; [discriminate|]. intros fails F1 F2. rewrite F1 by lia. reflexivity.
  - exists n, false. split; [lia|]. split; [discriminate|]. intros. cbn [arun lrun]. destruct (hrun E (Del x) s). reflexivity.
  - exists n, false. split; [lia|]. split; [discriminate|]. intros. reflexivity.
  - exists n, false. split; [lia|]. split; [discriminate|]. intros. reflexivity.
  - exists n, false. split; [lia|]. split; [discriminate|]. intros. cbn [arun lrun hrun]. destruct (store s x _ v). reflexivity.
  - exists n, false. split; [lia|]. split; [discriminate|]. intros. reflexivity.
  - exists n, false. split; [lia|]. split; [discriminate|]. intros. cbn [arun lrun]. destruct (hrun E (Swap x y) s). reflexivity.
Qed.
Lemma lrun_guarantees {A} X leaks s (p : prog T A) L : T -> guarantees E false X leaks s p ->
  match lrun E L p s with (s', Fin m) => hrun E p s = (s', m) | (s', NoMem) => kept X leaks s s' end.
Proof.
  intros t P. destruct (lrun_arun L (fun _ => t) p s 0) as (n' & b & _ & _ & R). specialize (P (fun k => b && (k =? n')) (fun _ => t) 0).
  rewrite R in P; [destruct (lrun E L p s) as [s' [m|]]; exact P| |].
  - intros k H. destruct (Nat.eqb_spec k n'); [lia|]. apply Bool.andb_false_r.
  - intros ->. cbn. apply Nat.eqb_refl.
Qed.
Lemma lrun_ends {A} L (p : prog T A) : forall s s' m, lrun E L p s = (s', Fin m) -> ends_well m -> hrun E p s = (s', m).
Proof.
  induction p as [A m0|A B p IHp k IHk|A x keep p IHp|r c|x|x i j|x k|x i j v|x|x y]; intros s s' m R W; cbn [lrun] in R.
  - injection R as <- <-. reflexivity.
  - destruct (lrun E L p s) as [s1 [[a|e| | |]|]] eqn:R1; try discriminate; try (injection R as <- <-; try contradiction).
    + cbn [hrun]. rewrite (IHp s s1 (Ok a) R1 I). apply IHk; assumption.
    + cbn [hrun]. rewrite (IHp s s1 (Throw e) R1 I). reflexivity.
  - destruct (lrun E L p s) as [s1 [[a|e| | |]|]] eqn:R1; try (injection R as <- <-; contradiction).
    + cbn [hrun]. rewrite (IHp s s1 (Ok a) R1 I). destruct keep; [injection R as <- <-; reflexivity|]. destruct (destroy s1 x). injection R as <- <-. reflexivity.
    + cbn [hrun]. rewrite (IHp s s1 (Throw e) R1 I). destruct (destroy s1 x). injection R as <- <-. reflexivity.
    + unfold unwind in R. destruct (destroy s1 x) as [s2 [u|e| | |]]; try discriminate R; injection R as <- <-; contradiction.
  - destruct (L <? used s + r * c); [discriminate|]. destruct (hrun E (New r c) s). injection R as <- <-. reflexivity.
  - destruct (hrun E (Del x) s). injection R as <- <-. reflexivity.
  - destruct (hrun E (Get x i j) s). injection R as <- <-. reflexivity.
  - destruct (hrun E (Data x k) s). injection R as <- <-. reflexivity.
  - destruct (hrun E (Set_ x i j v) s). injection R as <- <-. reflexivity.
  - destruct (hrun E (Dims x) s). injection R as <- <-. reflexivity.
  - destruct (hrun E (Swap x y) s). injection R as <- <-. reflexivity.
Qed.
(** *** Triples with a need *)
Definition cost {A} (G : env) (p : prog T A) (lo hi : nat) (Q : A -> env -> nat -> Prop) (QT : env -> Prop) : Prop :=
  forall s, holds s G ->
    (forall L, used s + hi <= L -> lrun E L p s = (fst (hrun E p s), Fin (snd (hrun E p s)))) /\
    (forall L, used s <= L -> L < used s + lo -> stops (snd (lrun E L p s))) /\
    match hrun E p s with
    | (s', Ok a) => exists H d, holds s' H /\ used s' = used s + d /\ Q a H d
    | (s', Throw _) => exists H, holds s' H /\ used s' = used s /\ QT H
    | _ => True
    end.
Lemma cost_weaken {A} G (p : prog T A) lo hi hi' (Q Q' : A -> env -> nat -> Prop) (QT QT' : env -> Prop) : cost G p lo hi Q QT -> hi <= hi' ->
  (forall a H d, Q a H d -> Q' a H d) -> (forall H, QT H -> QT' H) -> cost G p lo hi' Q' QT'.
Proof.
  intros P Lh K1 K2 s Hs. destruct (P s Hs) as (P1 & P2 & P3). split; [|split].
  - intros L HL. apply P1. lia.
  - exact P2.
  - destruct (hrun E p s) as [s' [a|e| | |]]; auto; [destruct P3 as (H & d & P3)|destruct P3 as (H & P3)]; [exists H, d|exists H]; intuition auto.
Qed.
Lemma cost_same {A} G H (p : prog T A) lo hi Q QT : same G H -> cost G p lo hi Q QT -> cost H p lo hi Q QT.
Proof. intros X P s Hs. apply P. eapply holds_ext; [exact Hs|]. intros x. symmetry. apply X. Qed.
(** p does not throw, or what follows needs nothing *)
Lemma cost_bind {A B} G (p : prog T A) (k : A -> prog T B) lo1 hi1 lo2 hi2 d1 (Q1 : A -> env -> Prop) Q QT1 QT : cost G p lo1 hi1 (fun a H d => d = d1 /\ Q1 a H) QT1 ->
  (forall H, QT1 H -> QT H /\ d1 + lo2 <= lo1) ->
  (forall a H, Q1 a H -> cost H (k a) lo2 hi2 (fun b K d => Q b K (d1 + d)) (fun K => d1 = 0 /\ QT K)) -> cost G (Bind p k) (max lo1 (d1 + lo2)) (max hi1 (d1 + hi2)) Q QT.
Proof.
  intros P KT K s Hs. destruct (P s Hs) as (P1 & P2 & P3). split; [|split].
  - intros L HL. cbn [lrun hrun]. rewrite P1 by lia. destruct (hrun E p s) as [s1 [a|e| | |]]; cbn [fst snd bind]; try reflexivity.
    destruct P3 as (H & d & H1 & H2 & -> & H3). apply (K a H H3 s1 H1). lia.
  - intros L HL HL'. cbn [lrun]. pose proof (lrun_used L p s HL) as U1. specialize (P2 L HL). destruct (lrun E L p s) as [s1 [[a|e| | |]|]] eqn:R; cbn [bind snd fst] in *; try exact I.
    + pose proof (lrun_ends L p s s1 (Ok a) R I) as R'. rewrite R' in P3. destruct P3 as (H & d & H1 & H2 & -> & H3).
      destruct (Nat.lt_ge_cases L (used s + lo1)) as [Lt|Ge]; [destruct (P2 Lt)|]. apply (K a H H3 s1 H1); lia.
    + pose proof (lrun_ends L p s s1 (Throw e) R I) as R'. rewrite R' in P3. destruct P3 as (H & H1 & H2 & H3). destruct (KT H H3). apply P2. lia.
  - cbn [hrun]. destruct (hrun E p s) as [s1 [a|e| | |]]; cbn [bind]; auto.
    + destruct P3 as (H & d & H1 & H2 & -> & H3). destruct (K a H H3 s1 H1) as (_ & _ & K3). destruct (hrun E (k a) s1) as [s2 [b|e| | |]]; auto.
      * destruct K3 as (H' & d & K1 & K2 & K3). exists H', (d1 + d). split; [exact K1|]. split; [lia|exact K3].
      * destruct K3 as (H' & K1 & K2 & K3 & K4). exists H'. split; [exact K1|]. split; [lia|exact K4].
    + destruct P3 as (H & H1 & H2 & H3). exists H. destruct (KT H H3). auto.
Qed.
(** an object that is worked on, and kept or destroyed *)
Lemma cost_scoped {A} G (f : prog T nat) (keep : bool) (body : nat -> prog T A) lo1 hi1 lo2 hi2 sz (P : Mat T -> Prop) (Q : A -> env -> nat -> Prop) (QT : env -> Prop) :
  cost G f lo1 hi1 (fun y H d => d = sz /\ G y = None /\ exists w, P w /\ length (data w) = sz /\ same H (upd G y (Some w))) (fun _ => False) ->
  (forall y w, G y = None -> P w -> length (data w) = sz ->
     cost (upd G y (Some w)) (body y) lo2 hi2
       (fun a H d => if keep then Q a H (sz + d) else exists w', H y = Some w' /\ length (data w') = sz /\ Q a (upd H y None) d)
       (fun H => exists w', H y = Some w' /\ length (data w') = sz /\ QT (upd H y None))) ->
  cost G (y <~ f ;; Scope y keep (body y)) (max lo1 (sz + lo2)) (max hi1 (sz + hi2)) Q QT.
Proof.
  intros P1 K s Hs. destruct (P1 s Hs) as (F1 & F2 & F3).
  assert (D : forall s' H y (w' : Mat T), holds s' H -> H y = Some w' -> exists s2, destroy s' y = (s2, Ok tt) /\ holds s2 (upd H y None) /\ used s2 + length (data w') = used s').
  { intros s' H y w' Hh Hy. destruct (destroy_ok s' H y w' Hh Hy) as (s2 & Ed & Hh2). exists s2. split; [exact Ed|]. split; [exact Hh2|].
    pose proof (used_destroy s' y w') as U. rewrite Ed in U. apply U. destruct Hh as [_ V]. rewrite V. exact Hy. }
  split; [|split].
  - intros L HL. cbn [lrun hrun]. rewrite F1 by lia. destruct (hrun E f s) as [s1 [y|e| | |]]; cbn [fst snd bind]; try reflexivity.
    destruct F3 as (H & d & H1 & H2 & -> & Gy & w & Pw & Lw & S). apply (holds_ext _ _ (upd G y (Some w))) in H1; [|exact S].
    destruct (K y w Gy Pw Lw s1 H1) as (K1 & _ & _). rewrite K1 by lia. destruct (hrun E (body y) s1) as [s2 [a|e| | |]]; cbn [fst snd]; try reflexivity.
    + destruct keep; [reflexivity|]. destruct (destroy s2 y). reflexivity.
    + destruct (destroy s2 y). reflexivity.
  - intros L HL HL'. cbn [lrun]. pose proof (lrun_used L f s HL) as U1. specialize (F2 L HL). destruct (lrun E L f s) as [s1 [[y|e| | |]|]] eqn:R; cbn [bind snd fst] in *; try exact I.
    + pose proof (lrun_ends L f s s1 (Ok y) R I) as R'. rewrite R' in F3. destruct F3 as (H & d & H1 & H2 & -> & Gy & w & Pw & Lw & S). apply (holds_ext _ _ (upd G y (Some w))) in H1; [|exact S].
      destruct (Nat.lt_ge_cases L (used s + lo1)) as [Lt|Ge]; [destruct (F2 Lt)|]. destruct (K y w Gy Pw Lw s1 H1) as (_ & K2 & _).
      specialize (K2 L U1 ltac:(lia)). destruct (lrun E L (body y) s1) as [s2 [[a|e| | |]|]]; try destruct K2; try exact I. unfold unwind. destruct (destroy s2 y) as [s3 [u|e| | |]]; exact I.
    + pose proof (lrun_ends L f s s1 (Throw e) R I) as R'. rewrite R' in F3. destruct F3 as (H & _ & _ & []).
  - cbn [hrun]. destruct (hrun E f s) as [s1 [y|e| | |]]; cbn [bind]; auto.
    + destruct F3 as (H & d & H1 & H2 & -> & Gy & w & Pw & Lw & S). apply (holds_ext _ _ (upd G y (Some w))) in H1; [|exact S].
      destruct (K y w Gy Pw Lw s1 H1) as (_ & _ & K3). destruct (hrun E (body y) s1) as [s2 [a|e| | |]]; auto.
      * destruct K3 as (H' & d & K1 & K2 & K3). destruct keep; [exists H', (sz + d); split; [exact K1|]; split; [lia|exact K3]|].
        destruct K3 as (w' & Hy & Lw' & K3). destruct (D s2 H' y w' K1 Hy) as (s3 & -> & K4 & K5). exists (upd H' y None), d. split; [exact K4|]. split; [lia|exact K3].
      * destruct K3 as (H' & K1 & K2 & w' & Hy & Lw' & K3). destruct (D s2 H' y w' K1 Hy) as (s3 & -> & K4 & K5). exists (upd H' y None). split; [exact K4|]. split; [lia|exact K3].
    + destruct F3 as (H & _ & _ & []).
Qed.
(** *** Programs without new: [t]: it may throw; they change only entries of X *)
Inductive calm (t : bool) (X : nat -> bool) : forall A, prog T A -> Prop :=
| calm_ret A (m : res A) : (t = false -> forall e, m <> Throw e) -> calm t X A (Ret m)
| calm_bind A B (p : prog T A) (k : A -> prog T B) : calm t X A p -> (forall a, calm t X B (k a)) -> calm t X B (Bind p k)
| calm_get x i j : calm t X T (Get x i j)
| calm_data x k : calm t X T (Data x k)
| calm_set x i j v : X x = true -> calm t X unit (Set_ x i j v)
| calm_dims x : calm t X (nat * nat) (Dims x).
Lemma calm_cost t X A (p : prog T A) : calm t X A p -> forall G, cost G p 0 0 (fun _ H d => d = 0 /\ near X G H) (fun H => t = true /\ near X G H).
Proof.
  intros P. induction P as [A m Ht|A B p k P IHP K IHK|x i j|x k|x i j v Hx|x]; intros G.
  - intros s Hs. split; [reflexivity|]. split; [lia|]. cbn [hrun]. destruct m as [a|e| | |]; auto.
    + exists G, 0. split; [exact Hs|]. split; [lia|]. auto using near_refl.
    + exists G. split; [exact Hs|]. split; [lia|]. split; [|apply near_refl]. destruct t; [reflexivity|]. destruct (Ht eq_refl e eq_refl).
  - change 0 with (max 0 (0 + 0)) at 1. change 0 with (max 0 (0 + 0)) at 4. eapply (cost_bind G p k 0 0 0 0 0 (fun _ H => near X G H)).
    + apply IHP.
    + intros H [Ht N]. auto.
    + cbn beta. intros a H N. eapply cost_weaken; [apply IHK|lia|..]; cbn beta; [intros b K0 d [-> N2]|intros K0 [Ht N2]]; repeat (split; auto); (eapply near_trans; [exact N|exact N2]).
  - intros s Hs. split; [reflexivity|]. split; [lia|]. cbn [hrun]. pose proof (load_no_throw s x (fun o => i * ocols o + j)) as N.
    destruct (load s x _) as [a|e| | |]; auto; [exists G, 0; split; [exact Hs|]; split; [lia|]; auto using near_refl|destruct (N e eq_refl)].
  - intros s Hs. split; [reflexivity|]. split; [lia|]. cbn [hrun]. pose proof (load_no_throw s x (fun _ => k)) as N.
    destruct (load s x _) as [a|e| | |]; auto; [exists G, 0; split; [exact Hs|]; split; [lia|]; auto using near_refl|destruct (N e eq_refl)].
  - intros s Hs. split; [|split; [lia|]].
    + intros L _. cbn [lrun]. destruct (hrun E (Set_ x i j v) s). reflexivity.
    + destruct (tri_set E false (fun _ => false) (fun _ => v) G x i j v s 0 Hs) as [P _]. pose proof (used_store s x (fun o => i * ocols o + j) v) as U. cbn [hrun] in *.
      destruct (store s x _ v) as [s' [u|e| | |]]; auto; [destruct P as (H & Hh & N)|destruct P as (H & _ & [])]. exists H, 0. split; [exact Hh|]. split; [cbn [fst] in U; lia|]. split; [reflexivity|].
      eapply near_mono; [|exact N]. intros y. unfold only. intros K. apply Nat.eqb_eq in K. congruence.
  - intros s Hs. split; [reflexivity|]. split; [lia|]. cbn [hrun]. destruct (live (objs s) x); auto. exists G, 0. split; [exact Hs|]. split; [lia|]. auto using near_refl.
Qed.
Lemma calm_for t X n : forall a body, (forall i, calm t X unit (body i)) -> calm t X unit (pfor n a body).
Proof. induction n as [|n IH]; intros a body K; cbn [pfor]; [apply calm_ret; discriminate|]. apply calm_bind; auto. Qed.
Lemma calm_fold t X {S} n : forall a (body : nat -> S -> prog T S) s, (forall i s, calm t X S (body i s)) -> calm t X S (pfold n a body s).
Proof. induction n as [|n IH]; intros a body s K; cbn [pfold]; [apply calm_ret; discriminate|]. apply calm_bind; auto. Qed.
Lemma calm_all X n : forall a p, (forall i, calm true X bool (p i)) -> calm true X bool (pall n a p).
Proof. induction n as [|n IH]; intros a p K; cbn [pall]; [apply calm_ret; discriminate|]. apply calm_bind; auto. intros []; [apply IH; auto|apply calm_ret; discriminate]. Qed.
Ltac step := match goal with
  | |- calm _ _ _ (Bind _ _) => apply calm_bind; [|intros ?]
  | |- calm true _ _ (Ret _) => apply calm_ret; discriminate
  | |- calm _ _ _ (Ret (Ok _)) => apply calm_ret; discriminate
  | |- calm _ _ _ (Ret (read _ _)) => apply calm_ret; intros _ ? ?; eapply read_no_throw; eassumption
  | |- calm _ _ _ (Get _ _ _) => apply calm_get
  | |- calm _ _ _ (Data _ _) => apply calm_data
  | |- calm _ _ _ (Dims _) => apply calm_dims
  | |- calm _ _ _ (Set_ _ _ _ _) => apply calm_set; auto using here, here1
  | |- calm _ _ _ (pfor _ _ _) => apply calm_for; intros ?
  | |- calm _ _ _ (pfor_to _ _ _) => unfold pfor_to
  | |- calm _ _ _ (pfor2 _ _ _) => unfold pfor2
  | |- calm _ _ _ (pfill _ _ _ _) => unfold pfill
  | |- calm _ _ _ (h_assign_entry _ _ _ _ _) => unfold h_assign_entry
  | |- calm _ _ _ (pfold _ _ _ _) => apply calm_fold; intros ? ?
  | |- calm _ _ _ (pall _ _ _) => apply calm_all; intros ?
  | |- calm _ _ _ (if ?b then _ else _) => destruct b
  | |- calm _ _ _ (match ?b with _ => _ end) => destruct b
  end.
Ltac steps := repeat step.
Lemma calm_product_into (X : nat -> bool) a b x ra ca cb : X x = true -> calm true X unit (h_product_into E a b x ra ca cb).
Proof. intros H. unfold h_product_into. steps. Qed.
Lemma calm_swap_rows (X : nat -> bool) x a b : X x = true -> calm true X unit (h_swap_rows x a b).
Proof. intros H. unfold h_swap_rows. steps. Qed.
Lemma calm_find_pivot X f : forall x r i p, calm true X _ (h_find_pivot E f x r i p).
Proof. induction f as [|f IH]; intros x r i p; cbn [h_find_pivot]; steps; apply IH. Qed.
Lemma calm_det_rows (X : nat -> bool) x : X x = true -> forall n r factor pivot, calm true X T (h_det_rows E n r x factor pivot).
Proof.
  intros H. induction n as [|n IH]; intros r factor pivot; cbn [h_det_rows]; steps; try apply calm_find_pivot; try apply calm_swap_rows; auto. unfold h_det_clear. steps.
Qed.
Lemma calm_rref_rows (X : nat -> bool) x : X x = true -> forall n r pivot, calm true X unit (h_rref_rows E n r pivot x).
Proof.
  intros H. induction n as [|n IH]; intros r pivot; cbn [h_rref_rows]; steps; try apply calm_find_pivot; try apply calm_swap_rows; auto. unfold h_rref_clear. steps.
Qed.
Lemma calm_inplace_rref (X : nat -> bool) x : X x = true -> calm true X unit (h_inplace_rref E x).
Proof. intros H. unfold h_inplace_rref. steps. apply calm_rref_rows; auto. Qed.
Lemma calm_eq X a b : calm true X bool (h_eq E a b).
Proof. unfold h_eq. steps. Qed.
Lemma calm_det2 X x : calm true X T (h_det2 E x).
Proof. unfold h_det2. steps. Qed.
(** *** Makers: [need] elements on the way, an r x c result; [t]: may throw *)
Definition made (X : nat -> bool) (G : env) (r c y : nat) (H : env) : Prop :=
  G y = None /\ exists w G', rows w = r /\ cols w = c /\ length (data w) = r * c /\ near X G G' /\ same H (upd G' y (Some w)).
Definition mkc (t : bool) (X : nat -> bool) (G : env) (p : prog T nat) (need r c : nat) : Prop :=
  cost G p need need (fun y H d => d = r * c /\ made X G r c y H) (fun H => t = true /\ near X G H).
(** expressions and assignments *)
Definition exc {A} (G : env) (p : prog T A) (lo hi : nat) : Prop := cost G p lo hi (fun _ H d => d = 0 /\ same H G) (fun H => same H G).
Lemma cost_dims {A} G x v (k : nat * nat -> prog T A) lo hi Q QT : G x = Some v -> cost G (k (rows v, cols v)) lo hi Q QT -> cost G (Bind (Dims x) k) lo hi Q QT.
Proof.
  intros Gx K s Hs. pose proof (dims_ok E s G x v Hs Gx) as D. destruct (K s Hs) as (K1 & K2 & K3). cbn [hrun lrun] in *. injection D as D. rewrite D. split; [|split]; auto.
Qed.
Lemma cost_new G r c : cost G (New r c) (r * c) (r * c) (fun x H d => d = r * c /\ G x = None /\ same H (upd G x (Some (Mat_new E r c)))) (fun _ => False).
Proof.
  intros s Hs. destruct (new_ok E s G r c Hs) as (s' & x & R & Gx & Hn). pose proof (used_new E s r c) as U. split; [|split].
  - intros L HL. cbn [lrun]. destruct (Nat.ltb_spec L (used s + r * c)); [lia|]. destruct (hrun E (New r c) s). reflexivity.
  - intros L _ HL. cbn [lrun]. destruct (Nat.ltb_spec L (used s + r * c)); [exact I|lia].
  - rewrite R in *. exists (upd G x (Some (Mat_new E r c))), (r * c). auto using same_refl.
Qed.
Lemma new_shape r c : rows (Mat_new E r c) = r /\ cols (Mat_new E r c) = c /\ length (data (Mat_new E r c)) = r * c.
Proof. cbn. rewrite repeat_length. auto. Qed.
Lemma mkc_weaken t X G p need r c : mkc false none G p need r c -> mkc t X G p need r c.
Proof.
  intros P. eapply cost_weaken; [exact P|lia|..]; cbn beta; [|intros H [K _]; discriminate K]. intros y H d (-> & Gy & w & G' & R & C & L & N & S). split; [reflexivity|]. split; [exact Gy|]. exists w, G'. repeat (split; auto). apply near_same, near_none. exact N.
Qed.
Lemma mkc_throws G p need r c : mkc false none G p need r c -> mkc true none G p need r c.
Proof. apply mkc_weaken. Qed.
(** what is left of x and the others after a body that changed X and x *)
Lemma made_kept (X : nat -> bool) G x w r c H : G x = None -> rows w = r -> cols w = c -> length (data w) = r * c -> near (fun y => X y || only x y) (upd G x (Some w)) H -> made X G r c x H.
Proof.
  intros Gx R C L N. destruct (near_kept X G x w H Gx N) as (w' & G' & N1 & S1 & Sr & Sc & Sl). split; [exact Gx|]. exists w', G'. repeat (split; [congruence||auto|]). exact S1.
Qed.
Lemma mkc_ctor G r c (body : nat -> prog T unit) :
  (forall x, cost (upd G x (Some (Mat_new E r c))) (body x) 0 0 (fun _ H d => d = 0 /\ near (only x) (upd G x (Some (Mat_new E r c))) H) (fun _ => False)) ->
  mkc false none G (x <~ New r c ;; _ <~ body x ;; Ret (Ok x)) (r * c) r c.
Proof.
  intros P. replace (r * c) with (max (r * c) (r * c + 0)) by lia. eapply (cost_bind G (New r c) _ (r * c) (r * c) 0 0 (r * c) (fun x H => G x = None /\ same H (upd G x (Some (Mat_new E r c)))) _ (fun _ => False)).
  - eapply cost_weaken; [apply cost_new|lia|..]; cbn beta; auto.
  - contradiction.
  - cbn beta. intros x H [Gx S]. apply (cost_same (upd G x (Some (Mat_new E r c)))); [intros y; symmetry; apply S|].
    change 0 with (max 0 (0 + 0)) at 1. change 0 with (max 0 (0 + 0)) at 2. eapply (cost_bind _ (body x) _ 0 0 0 0 0 (fun _ H => near (only x) (upd G x (Some (Mat_new E r c))) H) _ (fun _ => False)).
    + apply P.
    + contradiction.
    + cbn beta. intros _ K N s Hs. split; [reflexivity|]. split; [lia|]. cbn [hrun]. exists K, 0. split; [exact Hs|]. split; [lia|]. split; [lia|]. destruct (new_shape r c) as (Sr & Sc & Sl). eapply made_kept; eauto.
Qed.
Lemma mkc_scoped t X G f r c need (body : nat -> prog T unit) : mkc false none G f need r c -> r * c <= need -> (forall x, calm t (fun y => X y || only x y) unit (body x)) ->
  mkc t X G (x <~ f ;; Scope x true (_ <~ body x ;; Ret (Ok x))) need r c.
Proof.
  intros P Ln K. unfold mkc. replace need with (max need (r * c + 0)) by lia.
  eapply (cost_scoped G f true (fun x => _ <~ body x ;; Ret (Ok x)) need need 0 0 (r * c) (fun w => rows w = r /\ cols w = c)).
  - eapply cost_weaken; [exact P|lia|..]; cbn beta; [|intros H [L _]; discriminate L]. intros y H d (-> & Gy & w & G' & R & C & L & N & S). split; [reflexivity|]. split; [exact Gy|]. exists w. apply near_none in N. repeat (split; auto).
    eapply same_trans; [exact S|]. apply same_upd. exact N.
  - intros x w Gx [R C] L. change 0 with (max 0 (0 + 0)) at 1. change 0 with (max 0 (0 + 0)) at 2.
    eapply (cost_bind _ (body x) _ 0 0 0 0 0 (fun _ H => near (fun y => X y || only x y) (upd G x (Some w)) H) _ (fun H => t = true /\ near (fun y => X y || only x y) (upd G x (Some w)) H)).
    + apply calm_cost, K.
    + intros H [Ht N]. split; [|lia]. destruct (near_kept X G x w H Gx N) as (w' & G' & N1 & S1 & Sr & Sc & Sl). exists w'. rewrite S1, upd_same. split; [reflexivity|]. split; [congruence|]. split; [exact Ht|]. eapply near_gone; eassumption.
    + cbn beta. intros _ H N s Hs. split; [reflexivity|]. split; [lia|]. cbn [hrun]. exists H, 0. split; [exact Hs|]. split; [lia|]. split; [lia|]. eapply made_kept; eauto.
Qed.
Lemma mkc_new G r c : mkc false none G (New r c) (r * c) r c.
Proof.
  eapply cost_weaken; [apply cost_new|lia|..]; cbn beta; [|contradiction]. intros x H d (-> & Gx & S). split; [reflexivity|]. split; [exact Gx|]. destruct (new_shape r c) as (Sr & Sc & Sl). exists (Mat_new E r c), G. repeat (split; auto).
Qed.
Lemma mkc_returning t X G r c body : (forall x, calm t (fun y => X y || only x y) unit (body x)) -> mkc t X G (returning r c body) (r * c) r c.
Proof. intros K. unfold returning. apply (mkc_scoped t X G (New r c) r c); [apply mkc_new|lia|exact K]. Qed.
Lemma mkc_local t X G f r1 c1 need1 body need r c : mkc false none G f need1 r1 c1 -> r1 * c1 <= need1 -> (forall x w, G x = None -> rows w = r1 -> cols w = c1 -> length (data w) = r1 * c1 -> mkc t (fun y => X y || only x y) (upd G x (Some w)) (body x) need r c) ->
  mkc t X G (local f body) (max need1 (r1 * c1 + need)) r c.
Proof.
  intros P Ln K. eapply (cost_scoped G f false body need1 need1 need need (r1 * c1) (fun w => rows w = r1 /\ cols w = c1)).
  - eapply cost_weaken; [exact P|lia|..]; cbn beta; [|intros H [L _]; discriminate L]. intros y H d (-> & Gy & w & G' & R & C & L & N & S). split; [reflexivity|]. split; [exact Gy|]. exists w. apply near_none in N. repeat (split; auto).
    eapply same_trans; [exact S|]. apply same_upd. exact N.
  - intros x w Gx [R C] L. eapply cost_weaken; [apply (K x w Gx R C L)|lia|..]; cbn beta.
    + intros y H d (-> & Gy & w1 & G1 & R1 & C1 & L1 & N1 & S1). assert (Ny : y <> x) by (intros ->; rewrite upd_same in Gy; discriminate). rewrite upd_other in Gy by exact Ny.
      destruct (near_kept X G x w G1 Gx N1) as (w' & G2 & N2 & S2 & Sr & Sc & Sl). exists w'. rewrite S1, upd_other, S2, upd_same by auto. split; [reflexivity|]. split; [congruence|]. split; [reflexivity|]. split; [exact Gy|].
      exists w1, (upd G1 x None). repeat (split; auto); [eapply near_gone; eassumption|]. eapply same_trans; [apply same_upd, S1|]. apply upd_swap. exact Ny.
    + intros H [Ht N]. destruct (near_kept X G x w H Gx N) as (w' & G' & N1 & S1 & Sr & Sc & Sl). exists w'. rewrite S1, upd_same. split; [reflexivity|]. split; [congruence|]. split; [exact Ht|]. eapply near_gone; eassumption.
Qed.
Lemma exc_local {A} G f r1 c1 need1 (body : nat -> prog T A) lo hi : mkc false none G f need1 r1 c1 -> r1 * c1 <= need1 ->
  (forall x w, G x = None -> rows w = r1 -> cols w = c1 -> length (data w) = r1 * c1 -> cost (upd G x (Some w)) (body x) lo hi (fun _ H d => d = 0 /\ near (only x) (upd G x (Some w)) H) (fun H => near (only x) (upd G x (Some w)) H)) ->
  exc G (local f body) (max need1 (r1 * c1 + lo)) (max need1 (r1 * c1 + hi)).
Proof.
  intros P Ln K. eapply (cost_scoped G f false body need1 need1 lo hi (r1 * c1) (fun w => rows w = r1 /\ cols w = c1)).
  - eapply cost_weaken; [exact P|lia|..]; cbn beta; [|intros H [L _]; discriminate L]. intros y H d (-> & Gy & w & G' & R & C & L & N & S). split; [reflexivity|]. split; [exact Gy|]. exists w. apply near_none in N. repeat (split; auto).
    eapply same_trans; [exact S|]. apply same_upd. exact N.
  - intros x w Gx [R C] L.
    assert (D : forall H, near (only x) (upd G x (Some w)) H -> exists w', H x = Some w' /\ length (data w') = r1 * c1 /\ same (upd H x None) G).
    { intros H N. destruct (near_kept none G x w H Gx N) as (w' & G' & N1 & S1 & Sr & Sc & Sl). exists w'. rewrite S1, upd_same. split; [reflexivity|]. split; [congruence|]. apply near_none. eapply near_gone; eassumption. }
    eapply cost_weaken; [apply (K x w Gx R C L)|lia|..]; cbn beta.
    + intros a H d (-> & N). destruct (D H N) as (w' & D1 & D2 & D3). exists w'. auto.
    + intros H N. destruct (D H N) as (w' & D1 & D2 & D3). exists w'. auto.
Qed.
(** *** The functions *)
Lemma calm_none t {A} (p : prog T A) G : calm t none A p -> exc G p 0 0.
Proof. intros P. eapply cost_weaken; [apply (calm_cost t none A p P)|lia|..]; cbn beta; intros; intuition auto using near_none. Qed.
Lemma mkc_copy G x v : G x = Some v -> mkc false none G (h_copy x) (rows v * cols v) (rows v) (cols v).
Proof.
  intros Gx. unfold h_copy. apply (cost_dims G x v); [exact Gx|]. apply mkc_ctor. intros y. destruct (new_shape (rows v) (cols v)) as (Sr & Sc & _).
  unfold h_setEntries. apply (cost_dims _ y (Mat_new E (rows v) (cols v))); [apply upd_same|]. rewrite Sr, Sc, Nat.ltb_irrefl.
  eapply cost_weaken; [apply (calm_cost false (only y))|lia|..]; cbn beta; auto; [|intros H [L _]; discriminate L]. steps.
Qed.
Lemma mkc_val G r c v : mkc false none G (h_val r c v) (r * c) r c.
Proof.
  unfold h_val. apply mkc_ctor. intros y. eapply cost_weaken; [apply (calm_cost false (only y))|lia|..]; cbn beta; auto; [|intros H [L _]; discriminate L]. unfold h_setEntries_val. steps.
Qed.
Lemma mkc_array G vals r c : mkc false none G (h_array vals r c) (r * c) r c.
Proof.
  unfold h_array. apply mkc_ctor. intros y. destruct (new_shape r c) as (Sr & Sc & _).
  unfold h_setEntries. apply (cost_dims _ y (Mat_new E r c)); [apply upd_same|]. rewrite Sr, Sc, Nat.ltb_irrefl.
  eapply cost_weaken; [apply (calm_cost false (only y))|lia|..]; cbn beta; auto; [|intros H [L _]; discriminate L]. steps.
Qed.
Lemma mkc_map G f x v : G x = Some v -> mkc true none G (h_map f x) (rows v * cols v) (rows v) (cols v).
Proof. intros Gx. unfold h_map. apply (cost_dims G x v); [exact Gx|]. apply mkc_returning. intros y. steps. Qed.
Lemma mkc_binary G op a b v w : G a = Some v -> G b = Some w -> rows v = rows w -> cols v = cols w -> mkc true none G (h_binary op a b) (rows v * cols v) (rows v) (cols v).
Proof.
  intros Ga Gb R C. unfold h_binary. apply (cost_dims G a v); [exact Ga|]. apply (cost_dims G b w); [exact Gb|]. rewrite <- R, <- C, !Nat.eqb_refl. cbn [andb negb]. apply mkc_returning. intros y. steps.
Qed.
Lemma mkc_product G a b v w : G a = Some v -> G b = Some w -> cols v = rows w -> mkc true none G (h_product E a b) (rows v * cols w) (rows v) (cols w).
Proof.
  intros Ga Gb R. unfold h_product. apply (cost_dims G a v); [exact Ga|]. apply (cost_dims G b w); [exact Gb|]. rewrite <- R, Nat.eqb_refl. cbn [negb].
  apply (mkc_scoped true none G _ (rows v) (cols w) _ (fun x => h_product_into E a b x (rows v) (cols v) (cols w))); [apply mkc_val|lia|]. intros x. apply calm_product_into, here.
Qed.
Lemma mkc_first_minor G x v i j : G x = Some v -> rows v <> 0 -> cols v <> 0 -> mkc false none G (h_first_minor x i j) ((rows v - 1) * (cols v - 1)) (rows v - 1) (cols v - 1).
Proof.
  intros Gx R C. unfold h_first_minor. apply (cost_dims G x v); [exact Gx|]. destruct (Nat.eqb_spec (rows v) 0); [contradiction|]. destruct (Nat.eqb_spec (cols v) 0); [contradiction|]. cbn [orb].
  apply mkc_returning. intros y. steps.
Qed.
Lemma mkc_cofactor G x v i j : G x = Some v -> rows v <> 0 -> cols v <> 0 ->
  mkc true none G (h_cofactor E x i j) (if (i + j) mod 2 =? 1 then 2 * ((rows v - 1) * (cols v - 1)) else (rows v - 1) * (cols v - 1)) (rows v - 1) (cols v - 1).
Proof.
  intros Gx R C. unfold h_cofactor. destruct (_ =? 1); [|apply mkc_throws, mkc_first_minor; auto]. unfold mkc. set (n := (rows v - 1) * (cols v - 1)).
  replace (2 * n) with (max n (n + n)) by lia. apply (mkc_local true none G (h_first_minor x i j) (rows v - 1) (cols v - 1)); [apply mkc_first_minor; auto|lia|]. intros y w Gy Rw Cw _.
  unfold n. rewrite <- Rw, <- Cw. pose proof (mkc_map (upd G y (Some w)) (neg E) y w (upd_same _ _ _)) as P. eapply cost_weaken; [exact P|lia|..]; cbn beta.
  - intros z H d (-> & Gz & u & G' & Ru & Cu & Lu & N & S). split; [reflexivity|]. split; [exact Gz|]. exists u, G'. repeat (split; auto). apply near_same, near_none. exact N.
  - intros H [Ht N]. split; [exact Ht|]. apply near_same, near_none. exact N.
Qed.
Lemma mkc_rref G x v : G x = Some v -> mkc true none G (h_rref E x) (rows v * cols v) (rows v) (cols v).
Proof.
  intros Gx. unfold h_rref. apply (mkc_scoped true none G _ (rows v) (cols v) _ (h_inplace_rref E)); [apply mkc_copy; exact Gx|lia|]. intros y. apply calm_inplace_rref, here.
Qed.
Lemma mkc_diagonal G vals n : mkc false none G (h_diagonal E vals n) (n * n) n n.
Proof.
  unfold h_diagonal. apply (mkc_scoped false none G _ n n _ (fun x => pfor n 0 (fun i => v <~ Ret (read vals i) ;; Set_ x i i v))); [apply mkc_val|lia|]. intros y. steps.
Qed.
Lemma mkc_identity G n : mkc false none G (h_identity E n) (n * n) n n.
Proof.
  unfold h_identity. apply (mkc_scoped false none G _ n n _ (fun x => pfor n 0 (fun i => Set_ x i i (of_int E 1)))); [apply mkc_val|lia|]. intros y. steps.
Qed.
Lemma mkc_augmented t G a b v w : G a = Some v -> G b = Some w -> rows v = rows w -> mkc t none G (h_augmented a b) (rows v * (cols v + cols w)) (rows v) (cols v + cols w).
Proof.
  intros Ga Gb R. unfold h_augmented. apply (cost_dims G a v); [exact Ga|]. apply (cost_dims G b w); [exact Gb|]. rewrite <- R, Nat.eqb_refl. cbn [negb]. apply mkc_returning. intros y. steps.
Qed.
Lemma mkc_inverse G x v : G x = Some v -> rows v = cols v -> mkc true none G (h_inverse E x) (4 * (rows v * rows v)) (rows v) (rows v).
Proof.
  intros Gx R. unfold h_inverse. apply (cost_dims G x v); [exact Gx|]. rewrite <- R, Nat.eqb_refl. cbn [negb]. set (n := rows v) in *.
  replace (4 * (n * n)) with (max (n * n) (n * n + max (n * (n + n)) (n * (n + n) + n * n))) by lia.
  apply (mkc_local true none G (h_identity E n) n n); [apply mkc_identity|lia|]. intros id wi Gi Ri Ci _. assert (Nx : x <> id) by congruence.
  apply (mkc_local true _ _ (h_augmented x id) n (n + n)); [|lia|].
  - pose proof (mkc_augmented false (upd G id (Some wi)) x id v wi) as P. rewrite <- R, Ri, Ci in P. fold n in P. apply P; [rewrite upd_other by exact Nx; exact Gx|apply upd_same|reflexivity].
  - intros r wr Gr Rr Cr _. apply mkc_returning. intros res. assert (K : (fun y => ((none y || only id y) || only r y) || only res y) r = true) by (cbn beta; rewrite here1, Bool.orb_true_r; reflexivity).
    steps; [apply calm_inplace_rref; exact K|]. rewrite here1. apply Bool.orb_true_r.
Qed.
Lemma mkc_transpose G x v : G x = Some v -> mkc true none G (h_transpose x) (rows v * cols v) (cols v) (rows v).
Proof. intros Gx. unfold h_transpose. apply (cost_dims G x v); [exact Gx|]. replace (rows v * cols v) with (cols v * rows v) by lia. apply mkc_returning. intros y. steps. Qed.
Lemma exc_print G pr o x v : G x = Some v -> exc G (h_print pr o x) (rows v * cols v) (rows v * cols v).
Proof.
  intros Gx. unfold h_print. set (n := rows v * cols v). unfold exc. replace n with (max n (n + 0)) by lia. apply (exc_local G (h_copy x) (rows v) (cols v)); [apply mkc_copy; exact Gx|lia|]. intros y w Gy _ _ _.
  eapply cost_weaken; [apply (calm_cost true (only y))|lia|..]; cbn beta; auto; [|intros H [_ N]; exact N]. steps.
Qed.
Lemma exc_determinant G x v : G x = Some v -> rows v = cols v -> let k := if (rows v =? 1) || (rows v =? 2) then 0 else rows v * rows v in exc G (h_determinant E x) k k.
Proof.
  intros Gx R k. subst k. unfold h_determinant. apply (cost_dims G x v); [exact Gx|]. rewrite <- R, Nat.eqb_refl. cbn [negb]. destruct (rows v =? 1); [apply (calm_none true), calm_data|]. destruct (rows v =? 2); [apply (calm_none true), calm_det2|]. cbn [orb].
  set (n := rows v * rows v). unfold exc. replace n with (max n (n + 0)) by lia. unfold n. rewrite R at 2 4 6 8. apply (exc_local G (h_copy x) (rows v) (cols v)); [apply mkc_copy; exact Gx|lia|]. intros y w Gy _ _ _.
  eapply cost_weaken; [apply (calm_cost true (only y))|lia|..]; cbn beta; auto; [|intros H [_ N]; exact N]. steps. apply calm_det_rows, here1.
Qed.
(** *** Cofactor expansions *)
Lemma exc_bind {A B} G (p : prog T A) (k : A -> prog T B) lo hi : exc G p lo hi -> (forall a, exc G (k a) 0 hi) -> exc G (Bind p k) lo hi.
Proof.
  intros P K. unfold exc. replace lo with (max lo (0 + 0)) by lia. replace hi with (max hi (0 + hi)) at 1 by lia. eapply (cost_bind G p k lo hi 0 hi 0 (fun _ H => same H G) _ (fun H => same H G)).
  - exact P.
  - intros H S. split; [exact S|lia].
  - cbn beta. intros a H S. apply (cost_same G); [intros y; symmetry; apply S|]. eapply cost_weaken; [apply K|lia|..]; cbn beta; auto.
Qed.
Lemma exc_weaken {A} G (p : prog T A) lo hi hi' : exc G p lo hi -> hi <= hi' -> exc G p lo hi'.
Proof. intros P L. eapply cost_weaken; [exact P|exact L|auto|auto]. Qed.
Lemma exc_calm t {A} G (p : prog T A) hi : calm t none A p -> exc G p 0 hi.
Proof. intros P. eapply exc_weaken; [eapply calm_none; exact P|lia]. Qed.
Lemma exc_fold {S} G n hi : forall a (body : nat -> S -> prog T S) s, (forall i s, exc G (body i s) 0 hi) -> exc G (pfold n a body s) 0 hi.
Proof. induction n as [|n IH]; intros a body s K; cbn [pfold]; [apply (exc_calm true); step|]. apply exc_bind; auto. Qed.
(** the expression, with no object and then with the minor y *)
Lemma exc_in_local {A} G y w (p : prog T A) lo hi : exc (upd G y (Some w)) p lo hi -> cost (upd G y (Some w)) p lo hi (fun _ H d => d = 0 /\ near (only y) (upd G y (Some w)) H) (fun H => near (only y) (upd G y (Some w)) H).
Proof. intros P. eapply cost_weaken; [exact P|lia|..]; cbn beta; intros; intuition auto using near_same. Qed.
Lemma squares_S n : 3 <= n -> squares n = (n - 1) * (n - 1) + squares (n - 1).
Proof.
  intros H. unfold squares. replace (n - 2) with (S (n - 1 - 2)) by lia. rewrite seq_S, map_app, list_sum_app. replace (2 + (n - 1 - 2)) with (n - 1) by lia. cbn [map list_sum fold_right]. lia.
Qed.
Definition term (cs : bool) (rec : nat -> prog T T) (x k : nat) (result : T) : prog T T :=
  v <~ (if cs then Get x 0 k else Get x k 0) ;; z <~ Ret (eqb E v (of_int E 0)) ;;
  if z : bool then Ret (Ok result)
  else local (if cs then h_first_minor x 0 k else h_first_minor x k 0) (fun y =>
         d <~ rec y ;; p <~ Ret (mul E v d) ;;
         Ret (if k mod 2 =? 1 then subA E result (Some p) else addA E result (Some p))).
Lemma exc_expansion cs f : forall x G v, G x = Some v -> exc G (h_cofactor_expansion E f cs x) 0 (if rows v =? cols v then squares (rows v) else 0).
Proof.
  induction f as [|f IH]; intros x G v Gx; cbn [h_cofactor_expansion]; [apply (exc_calm true); step|]. unfold h_expansion. apply (cost_dims G x v); [exact Gx|].
  destruct (Nat.eqb_spec (rows v) (cols v)) as [R|]; cbn [negb]; [|apply (exc_calm true); step]. destruct (Nat.eqb_spec (rows v) 1); [apply (exc_calm true); step|]. destruct (Nat.eqb_spec (rows v) 2); [apply (exc_calm true), calm_det2|].
  destruct (rows v) as [|n'] eqn:En; [destruct cs; rewrite <- ?R; cbn; apply (exc_calm true); step|]. rewrite <- En in *. assert (H3 : 3 <= rows v) by lia.
  apply exc_fold. intros k result. fold (term cs (h_cofactor_expansion E f cs) x k result). unfold term.
  apply exc_bind; [destruct cs; apply (exc_calm true); step|]. intros a. apply exc_bind; [apply (exc_calm true); step|]. intros []; [apply (exc_calm true); step|].
  rewrite (squares_S (rows v) H3). set (m := (rows v - 1) * (rows v - 1)). unfold exc. change 0 with (0) at 1.
  assert (M : forall i j, mkc false none G (h_first_minor x i j) m (rows v - 1) (rows v - 1)).
  { intros i j. pose proof (mkc_first_minor G x v i j Gx) as P. rewrite <- R in P. apply P; lia. }
  assert (P : exc G (local (if cs then h_first_minor x 0 k else h_first_minor x k 0) (fun y => d <~ h_cofactor_expansion E f cs y ;; p <~ Ret (mul E a d) ;; Ret (if k mod 2 =? 1 then subA E result (Some p) else addA E result (Some p))))
    (max m (m + 0)) (max m (m + squares (rows v - 1)))).
  { apply (exc_local G _ (rows v - 1) (rows v - 1)); [destruct cs; apply M|unfold m; lia|]. intros y w Gy Rw Cw _. apply exc_in_local. apply exc_bind.
    - pose proof (IH y (upd G y (Some w)) w (upd_same _ _ _)) as Q. rewrite Rw, Cw, Nat.eqb_refl in Q. exact Q.
    - intros d. apply (exc_calm true). steps. }
  intros s Hs. destruct (P s Hs) as (P1 & P2 & P3). split; [intros L HL; apply P1; lia|]. split; [lia|exact P3].
Qed.
(** If no entry is zero, that much is needed. *)
Definition nonzero (v : Mat T) (n : nat) : Prop := mat_of (fun a (_ : unit) => eqb E a (of_int E 0) = Ok false) v n n (fun _ _ => tt).
Lemma cost_nonzero G x v i j n : G x = Some v -> nonzero v n -> i < n -> j < n -> cost G (Get x i j) 0 0 (fun a H d => d = 0 /\ (same H G /\ eqb E a (of_int E 0) = Ok false)) (fun _ => False).
Proof.
  intros Gx N Hi Hj s Hs. split; [reflexivity|]. split; [lia|]. destruct (entry_of (fun _ => False) _ v n n _ i j N Hi Hj) as [(a & Ea & Na)|(h & [] & _)].
  pose proof (expr_get E G x v i j Gx s Hs) as P. rewrite Ea in P. destruct P as (s' & b & H & R & Hh & -> & S). pose proof R as R0. cbn [hrun] in R0. injection R0 as <- _. rewrite R. exists H, 0. split; [exact Hh|]. split; [lia|]. auto.
Qed.
Lemma cost_minor G x v i j n : G x = Some v -> nonzero v n -> 0 < n -> let m := (n - 1) * (n - 1) in
  cost G (h_first_minor x i j) m m (fun y H d => d = m /\ G y = None /\ exists w, nonzero w (n - 1) /\ length (data w) = m /\ same H (upd G y (Some w))) (fun _ => False).
Proof.
  intros Gx N Hn m s Hs. destruct (mat_of_dims _ _ _ _ _ N) as (Rv & Cv & _). pose proof (mkc_first_minor G x v i j Gx ltac:(lia) ltac:(lia)) as P. rewrite Rv, Cv in P. fold m in P. destruct (P s Hs) as (P1 & P2 & P3).
  split; [exact P1|]. split; [exact P2|]. pose proof (makes_first_minor E G x v i j Gx s Hs) as Q. destruct (first_minor_ok E (fun _ => False) _ v n n _ i j N Hn Hn) as [(w & Ew & Nw)|(h & [] & _)]. rewrite Ew in Q.
  destruct Q as (s' & y & H & R & Hh & Gy & S). rewrite R in P3 |- *. destruct P3 as (H' & d & _ & U & -> & _). exists H, m. split; [exact Hh|]. split; [exact U|]. split; [reflexivity|]. split; [exact Gy|]. exists w.
  split; [exact Nw|]. split; [|exact S]. destruct (mat_of_dims _ _ _ _ _ Nw) as (_ & _ & L). exact L.
Qed.
Lemma exc_expansion_nonzero cs f : forall x G v n, G x = Some v -> nonzero v n -> exc G (h_cofactor_expansion E f cs x) (squares n) (squares n).
Proof.
  induction f as [|f IH]; intros x G v n Gx N.
  { intros s Hs. split; [reflexivity|]. split; [intros; exact I|exact I]. }
  destruct (mat_of_dims _ _ _ _ _ N) as (Rv & Cv & _). destruct (Nat.lt_ge_cases n 3) as [Lt|Ge].
  - replace (squares n) with 0 by (destruct n as [|[|[|n]]]; [reflexivity..|lia]). pose proof (exc_expansion cs (S f) x G v Gx) as P. rewrite Rv, Cv, Nat.eqb_refl in P. eapply exc_weaken; [exact P|]. destruct n as [|[|[|n]]]; [cbn; lia..|lia].
  - cbn [h_cofactor_expansion]. unfold h_expansion. apply (cost_dims G x v); [exact Gx|]. rewrite Rv, Cv, Nat.eqb_refl. cbn [negb]. destruct (Nat.eqb_spec n 1); [lia|]. destruct (Nat.eqb_spec n 2); [lia|].
    replace (if cs then n else n) with (S (n - 1)) by (destruct cs; lia). cbn [pfold]. pose proof (exc_expansion cs (S f) x G v Gx) as U. apply exc_bind.
    + fold (term cs (h_cofactor_expansion E f cs) x 0 (of_int E 0)). unfold term. set (k := squares n). replace k with (max 0 (0 + k)) by lia.
      eapply (cost_bind G _ _ 0 0 k k 0 (fun a H => same H G /\ eqb E a (of_int E 0) = Ok false) _ (fun _ => False)); [destruct cs; apply (cost_nonzero G x v _ _ n Gx N); lia|contradiction|]. cbn beta. intros a H [S Ha].
      apply (cost_same G); [intros y; symmetry; apply S|]. rewrite Ha. replace k with (max 0 (0 + k)) by lia.
      eapply (cost_bind G (Ret (Ok false)) _ 0 0 k k 0 (fun (b : bool) H => same H G /\ b = false) _ (fun _ => False)); [|contradiction|].
      { intros s Hs. split; [reflexivity|]. split; [lia|]. exists G, 0. split; [exact Hs|]. split; [lia|]. auto using same_refl. }
      cbn beta. intros b H1 [S1 ->]. apply (cost_same G); [intros y; symmetry; apply S1|]. cbn [Nat.add]. set (m := (n - 1) * (n - 1)).
      replace k with (max m (m + squares (n - 1))) by (unfold k; rewrite (squares_S n Ge); fold m; lia).
      eapply (cost_scoped G _ false _ m m (squares (n - 1)) (squares (n - 1)) m (fun w => nonzero w (n - 1))).
      * destruct cs; apply (cost_minor G x v _ _ n Gx N); lia.
      * intros y w Gy Nw Lw. assert (P : exc (upd G y (Some w)) (d <~ h_cofactor_expansion E f cs y ;; p <~ Ret (mul E a d) ;; Ret (if 0 mod 2 =? 1 then subA E (of_int E 0) (Some p) else addA E (of_int E 0) (Some p))) (squares (n - 1)) (squares (n - 1))).
        { apply exc_bind; [apply (IH y _ w (n - 1)); [apply upd_same|exact Nw]|]. intros d. apply (exc_calm true). steps. }
        assert (D : forall H, same H (upd G y (Some w)) -> H y = Some w /\ same (upd H y None) G) by (intros H2 S2; split; [rewrite S2; apply upd_same|eapply back; [exact Gy|exact S2]]).
        eapply cost_weaken; [exact P|lia|..]; cbn beta; [intros b H2 d [-> S2]|intros H2 S2]; destruct (D H2 S2); exists w; repeat (split; auto).
    + intros a. rewrite Rv, Cv, Nat.eqb_refl in U. apply exc_fold. intros i s0. clear U IH. fold (term cs (h_cofactor_expansion E f cs) x i s0).
      apply exc_bind; [destruct cs; apply (exc_calm true); step|]. intros e. apply exc_bind; [apply (exc_calm true); step|]. intros []; [apply (exc_calm true); step|].
      rewrite (squares_S n Ge). set (m := (n - 1) * (n - 1)).
      assert (M : forall i j, mkc false none G (h_first_minor x i j) m (n - 1) (n - 1)).
      { intros i' j. pose proof (mkc_first_minor G x v i' j Gx) as P. rewrite Rv, Cv in P. apply P; lia. }
      assert (P : exc G (local (if cs then h_first_minor x 0 i else h_first_minor x i 0) (fun y => d <~ h_cofactor_expansion E f cs y ;; p <~ Ret (mul E e d) ;; Ret (if i mod 2 =? 1 then subA E s0 (Some p) else addA E s0 (Some p))))
        (max m (m + 0)) (max m (m + squares (n - 1)))).
      { apply (exc_local G _ (n - 1) (n - 1)); [destruct cs; apply M|unfold m; lia|]. intros y w Gy Rw Cw _. apply exc_in_local. apply exc_bind.
        - pose proof (exc_expansion cs f y (upd G y (Some w)) w (upd_same _ _ _)) as Q. rewrite Rw, Cw, Nat.eqb_refl in Q. exact Q.
        - intros d. apply (exc_calm true). steps. }
      intros s Hs. destruct (P s Hs) as (P1 & P2 & P3). split; [intros L HL; apply P1; lia|]. split; [lia|exact P3].
Qed.
(** *** What the caller sees *)
Definition need2 {A} (s : mem) (p : prog T A) (lo hi : nat) : Prop :=
  (forall L, used s + hi <= L -> lrun E L p s = (fst (hrun E p s), Fin (snd (hrun E p s)))) /\
  (forall L, used s <= L -> L < used s + lo -> stops (snd (lrun E L p s))).
Lemma need2_of {A} s (p : prog T A) lo hi Q QT : owned s -> cost (value s) p lo hi Q QT -> need2 s p lo hi.
Proof. intros O P. destruct (P s (owned_holds s O)) as (P1 & P2 & _). split; assumption. Qed.
Lemma needs_of {A} s (p : prog T A) k : need2 s p k k -> guarantees E false none false s p -> needs E s p k.
Proof.
  intros [P1 P2] Gu. split; [exact P1|]. intros L HL HL' W. specialize (P2 L HL HL'). pose proof (lrun_guarantees none false s p L (of_int E 0) Gu) as K.
  destruct (lrun E L p s) as [s' [m|]]; [|exists s'; auto]. rewrite K in W. destruct m; contradiction.
Qed.
(** an object is made, worked on, and swapped into place *)
Lemma need2_local s f r c need (body : nat -> prog T unit) a : owned s -> mkc false none (value s) f need r c -> r * c <= need -> (forall x, calm true (only x) unit (body x)) ->
  need2 s (local f (fun x => _ <~ body x ;; Swap a x)) need need.
Proof.
  intros O P Ln K. destruct (P s (owned_holds s O)) as (F1 & F2 & F3). split.
  - intros L HL. unfold local. cbn [lrun hrun]. rewrite F1 by exact HL. destruct (hrun E f s) as [s1 [y|e| | |]]; cbn [fst snd bind]; try reflexivity.
    destruct F3 as (H & d & H1 & H2 & -> & M). destruct (calm_cost true (only y) unit (body y) (K y) H s1 H1) as (K1 & _ & _). rewrite K1 by lia.
    destruct (hrun E (body y) s1) as [s2 [u|e| | |]]; cbn [fst snd bind]; try reflexivity.
    + cbn [hrun lrun]. destruct (match live (objs s2) a with Some _ => _ | None => _ end) as [s3 [w|e| | |]]; try reflexivity; destruct (destroy s3 y); reflexivity.
    + destruct (destroy s2 y). reflexivity.
  - intros L HL HL'. unfold local. cbn [lrun]. specialize (F2 L HL HL'). destruct (lrun E L f s) as [s1 [[y|e| | |]|]]; cbn [snd stops] in F2; try contradiction; exact I.
Qed.
Lemma need2_assign s this a v : owned s -> value s a = Some v -> need2 s (h_assign this a) (rows v * cols v) (rows v * cols v).
Proof.
  intros O Ga. destruct (mkc_copy (value s) a v Ga s (owned_holds s O)) as (F1 & F2 & F3). split.
  - intros L HL. unfold h_assign, local. cbn [lrun hrun]. rewrite F1 by exact HL. destruct (hrun E (h_copy a) s) as [s1 [y|e| | |]]; cbn [fst snd bind]; try reflexivity.
    cbn [hrun lrun]. destruct (match live (objs s1) this with Some _ => _ | None => _ end) as [s3 [w|e| | |]]; try reflexivity; destruct (destroy s3 y); reflexivity.
  - intros L HL HL'. unfold h_assign, local. cbn [lrun]. specialize (F2 L HL HL'). destruct (lrun E L (h_copy a) s) as [s1 [[y|e| | |]|]]; cbn [snd stops] in F2; try contradiction; exact I.
Qed.
Lemma need2_dims {A} s x v (k : nat * nat -> prog T A) lo hi : owned s -> value s x = Some v -> need2 s (k (rows v, cols v)) lo hi -> need2 s (Bind (Dims x) k) lo hi.
Proof.
  intros O Gx [K1 K2]. pose proof (dims_ok E s (value s) x v (owned_holds s O) Gx) as D. cbn [hrun] in D. injection D as D. split; cbn [hrun lrun]; rewrite D; assumption.
Qed.
Lemma need2_product_assign s a b v w : owned s -> value s a = Some v -> value s b = Some w -> cols v = rows w -> need2 s (h_product_assign E a b) (rows v * cols w) (rows v * cols w).
Proof.
  intros O Ga Gb R. unfold h_product_assign. apply (need2_dims s a v); auto. apply (need2_dims s b w); auto. rewrite <- R, Nat.eqb_refl. cbn [negb].
  apply (need2_local s _ (rows v) (cols w) _ (fun x => h_product_into E a b x (rows v) (cols v) (cols w))); auto; [apply mkc_val|]. intros x. apply calm_product_into, here1.
Qed.
End Space.
