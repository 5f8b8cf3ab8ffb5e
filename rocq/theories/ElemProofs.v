(** A small program logic for [ret] and [sret]. *)
From Verif Require Import Base IntModel ElemModel ElemSpec.
Local Open Scope nat_scope.

Section Logic.
Context (ab : halt -> Prop).
Lemma ret_ok {A} (a : A) (Q : A -> Prop) : Q a -> ret ab (Ok a) Q.
Proof. intros H. left. eauto. Qed.
Lemma ret_stop {A} h (Q : A -> Prop) : ab h -> ret ab (stop h) Q.
Proof. intros H. right. eauto. Qed.
Lemma ret_mono {A} (m : res A) (Q Q' : A -> Prop) : ret ab m Q -> (forall a, Q a -> Q' a) -> ret ab m Q'.
Proof. intros [(a & E & H)|H] HQ; [left; eauto|right; auto]. Qed.
Lemma ret_bind {A B} (m : res A) (k : A -> res B) P Q :
  ret ab m P -> (forall a, P a -> ret ab (k a) Q) -> ret ab (bind m k) Q.
Proof. intros [(a & -> & H)|(h & H & ->)] Hk; [apply Hk, H|right; exists h; destruct h; auto]. Qed.
Lemma sret_done {S} (s : S) (Q : S -> Prop) : Q s -> sret ab (done s) Q.
Proof. intros H. left. auto. Qed.
Lemma sret_stop {S} (s : S) h (Q : S -> Prop) : ab h -> sret ab (s, stop h) Q.
Proof. intros H. right. eauto. Qed.
Lemma sret_mono {S} (p : outcome S) (Q Q' : S -> Prop) : sret ab p Q -> (forall s, Q s -> Q' s) -> sret ab p Q'.
Proof. intros [(E & H)|H] HQ; [left; auto|right; auto]. Qed.
Lemma sret_andthen {S} (p : outcome S) k (P Q : S -> Prop) :
  sret ab p P -> (forall s, P s -> sret ab (k s) Q) -> sret ab (andthen p k) Q.
Proof. intros H Hk. destruct p as [s r]. destruct H as [(E & H)|(h & H & E)]; cbn in *; subst; cbn; [auto|right; exists h; destruct h; auto]. Qed.
Lemma sret_eval {S A} (s : S) (m : res A) k P (Q : S -> Prop) :
  ret ab m P -> (forall a, P a -> sret ab (k a) Q) -> sret ab (eval s m k) Q.
Proof. intros [(a & -> & H)|(h & H & ->)] Hk; [apply Hk, H|right; exists h; destruct h; auto]. Qed.
Lemma ret_final {S} (p : outcome S) Q : sret ab p Q -> ret ab (final p) Q.
Proof. destruct p as [s r]. intros [(E & H)|(h & H & E)]; cbn in *; subst; [left; exists s; auto|right; exists h; destruct h; auto]. Qed.
Lemma sret_for {S} (I : nat -> S -> Prop) n : forall a body s,
  I a s -> (forall i s, a <= i < a + n -> I i s -> sret ab (body i s) (I (1 + i))) -> sret ab (for_ n a body s) (I (a + n)).
Proof.
  induction n as [|n IH]; intros a body s H Hb; cbn [for_].
  - apply sret_done. rewrite Nat.add_0_r. exact H.
  - eapply sret_andthen; [apply Hb; [lia|exact H]|]. intros s' H'.
    replace (a + Datatypes.S n) with (1 + a + n) by lia. apply IH; auto. intros i s'' Hi. apply Hb. lia.
Qed.
Lemma sret_for_to {S} (I : nat -> S -> Prop) a b body s : a <= b ->
  I a s -> (forall i s, a <= i < b -> I i s -> sret ab (body i s) (I (1 + i))) -> sret ab (for_to a b body s) (I b).
Proof.
  intros Hab H Hb. unfold for_to. replace (I b) with (I (a + (b - a))) by (f_equal; lia).
  apply sret_for; auto. intros i s' Hi. apply Hb. lia.
Qed.
End Logic.

Lemma ret_False {A} (m : res A) Q : ret never m Q -> exists a, m = Ok a /\ Q a.
Proof. intros [H|(h & [] & _)]; auto. Qed.
Lemma sret_False {S} (p : outcome S) Q : sret never p Q -> snd p = Ok tt /\ Q (fst p).
Proof. intros [H|(h & [] & _)]; auto. Qed.
Lemma ret_abort {A} (m : res A) Q : ret may_abort m Q <-> (exists a, m = Ok a /\ Q a) \/ m = Abort.
Proof. split; (intros [H|H]; [left; exact H|right]); [destruct H as (h & -> & ->); reflexivity|exists HAbort; split; auto; reflexivity]. Qed.
Lemma ret_overflow {A} (m : res A) Q : ret may_overflow m Q <-> (exists a, m = Ok a /\ Q a) \/ m = UB.
Proof. split; (intros [H|H]; [left; exact H|right]); [destruct H as (h & -> & ->); reflexivity|exists HUB; split; auto; reflexivity]. Qed.
Lemma sret_abort {S} (p : outcome S) Q : sret may_abort p Q <-> (snd p = Ok tt /\ Q (fst p)) \/ snd p = Abort.
Proof. split; (intros [H|H]; [left; exact H|right]); [destruct H as (h & -> & ->); reflexivity|exists HAbort; split; auto; reflexivity]. Qed.
Lemma sret_overflow {S} (p : outcome S) Q : sret may_overflow p Q <-> (snd p = Ok tt /\ Q (fst p)) \/ snd p = UB.
Proof. split; (intros [H|H]; [left; exact H|right]); [destruct H as (h & -> & ->); reflexivity|exists HUB; split; auto; reflexivity]. Qed.

(** *** Lists *)
Lemma length_replace {A} (l : list A) i x : length (replace l i x) = length l.
Proof. revert i. induction l as [|y l IH]; intros [|i]; cbn; auto. Qed.
Lemma nth_replace_eq {A} (l : list A) i x : i < length l -> nth_error (replace l i x) i = Some x.
Proof. revert i. induction l as [|y l IH]; intros [|i] H; cbn in *; try lia; auto. apply IH. lia. Qed.
Lemma nth_replace_ne {A} (l : list A) i j x : i <> j -> nth_error (replace l i x) j = nth_error l j.
Proof. revert i j. induction l as [|y l IH]; intros [|i] [|j] H; cbn; try lia; auto. Qed.
Lemma get_at_lt {A} (l : list A) i : i < length l -> exists x, get_at l i = Ok x /\ nth_error l i = Some x.
Proof.
  intros H. unfold get_at. destruct (nth_error l i) eqn:E; [eauto|]. apply nth_error_None in E. lia.
Qed.

(** x has n elements, the i-th satisfying P i *)
Definition seqP {T} (x : list T) (n : nat) (P : nat -> T -> Prop) : Prop :=
  length x = n /\ forall i, i < n -> exists e, nth_error x i = Some e /\ P i e.
Lemma seqP_of {T A} (R : T -> A -> Prop) x n v : seq_of R x n v <-> seqP x n (fun i e => R e (v i)).
Proof. reflexivity. Qed.

Section Seq.
Context {T : Type}.
Implicit Types (x y : list T) (P Q : nat -> T -> Prop).
Lemma seqP_get ab x n P i : seqP x n P -> i < n -> ret ab (get_at x i) (P i).
Proof. intros [_ H] Hi. destruct (H i Hi) as (e & E & HR). left. exists e. unfold get_at. rewrite E. auto. Qed.
Lemma seqP_mono x n P Q : seqP x n P -> (forall i e, i < n -> P i e -> Q i e) -> seqP x n Q.
Proof. intros [L H] HE. split; auto. intros i Hi. destruct (H i Hi) as (e & E & HR). eauto. Qed.
Lemma seqP_replace x n P i e : seqP x n P -> i < n ->
  seqP (replace x i e) n (fun j e' => if j =? i then e' = e else P j e').
Proof.
  intros [L H] Hi. split; [rewrite length_replace; auto|]. intros j Hj.
  destruct (Nat.eqb_spec j i) as [->|N].
  - exists e. rewrite nth_replace_eq by lia. auto.
  - rewrite nth_replace_ne by auto. auto.
Qed.
Lemma seqP_set x n P Q i e : seqP x n P -> i < n -> Q i e -> (forall j e', j < n -> j <> i -> P j e' -> Q j e') ->
  seqP (replace x i e) n Q.
Proof.
  intros H Hi He HQ. eapply seqP_mono; [apply seqP_replace; eauto|]. cbn. intros j e' Hj.
  destruct (Nat.eqb_spec j i) as [->|N]; [intros ->; auto|auto].
Qed.
Lemma seqP_snoc x n P e : seqP x n P -> P n e -> seqP (x ++ [e]) (1 + n) P.
Proof.
  intros [L H] He. split; [rewrite app_length; cbn; lia|]. intros i Hi. destruct (Nat.eq_dec i n) as [->|N].
  - exists e. rewrite nth_error_app2 by lia. rewrite L, Nat.sub_diag. auto.
  - rewrite nth_error_app1 by lia. apply H. lia.
Qed.
Lemma seqP_repeat e n P : (forall i, i < n -> P i e) -> seqP (repeat e n) n P.
Proof.
  intros H. split; [apply repeat_length|]. intros i Hi. exists e. split; auto. rewrite nth_error_repeat; auto.
Qed.
Lemma seqP_nil P : seqP [] 0 P.
Proof. split; auto. intros i Hi. lia. Qed.
Lemma seqP_self x : seqP x (length x) (fun i e => nth_error x i = Some e).
Proof. split; auto. intros i Hi. destruct (get_at_lt x i Hi) as (e & _ & E). eauto. Qed.
Lemma seqP_length x n P : seqP x n P -> length x = n.
Proof. intros [H _]. exact H. Qed.
End Seq.
