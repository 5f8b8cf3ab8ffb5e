(** Elimination on an upper triangular integer matrix with 1 or -1 in every place of the
    diagonal divides by 1 and -1 only (src/Mat.hpp:420-473). *)
From Verif Require Import Base IntModel ElemModel ElemSpec ElemProofs VecModel VecProofs MatModel MatSpec MatProofs MatElim SimSpec SimInst.
Local Open Scope nat_scope.

(** upper triangular with 1 or -1 on the diagonal, from row r on *)
Definition unit_upper (n r : nat) (g : nat -> nat -> Z) : Prop :=
  forall i, r <= i < n -> (forall j, j < i -> g i j = 0%Z) /\ Z.abs (g i i) = 1%Z.
Local Notation U := (units (fun _ => true)).
Section Run.
Context (n c : nat) (Hc : n <= c).
Definition upper_from (r : nat) (m : Mat Z) : Prop := exists h, mat_of eq m n c h /\ unit_upper n r h.

Lemma assign_upper op (f : Z -> Z) r m i j v : upper_from r m -> i < n -> j < c -> (forall x, op x (Some v) = Ok (f x)) -> (r <= i -> forall x, f x = x) ->
  sret never (assign_entry op m i j (Some v)) (upper_from r).
Proof.
  intros (h & Hm & Hu) Hi Hj Ho Hf.
  eapply sret_mono; [apply (assign_of never eq op (fun a _ => f a) m n c h i j v v); auto|].
  - intros x a ->. rewrite Ho. apply ret_ok. reflexivity.
  - intros d Hd. eexists. split; [exact Hd|]. intros k Hk. destruct (Hu k Hk) as [H1 H2]. cbn beta. split.
    + intros l Hl. destruct (Nat.eqb_spec k i), (Nat.eqb_spec l j); cbn [andb]; subst; auto. rewrite Hf by lia. auto.
    + destruct (Nat.eqb_spec k i), (Nat.eqb_spec k j); cbn [andb]; subst; auto. rewrite Hf by lia. auto.
Qed.
Lemma upper_dims r m : upper_from r m -> rows m = n /\ cols m = c.
Proof. intros (h & Hm & _). destruct (mat_of_dims eq m n c h Hm) as (-> & -> & _). auto. Qed.
Lemma clear_upper r m : r < n -> upper_from (S r) m -> sret never (rref_clear U m r r) (upper_from (S r)).
Proof.
  intros Hr Hm. unfold rref_clear. destruct (upper_dims _ _ Hm) as [-> _]. apply (sret_for never (fun _ d => upper_from (S r) d) n 0); [exact Hm|]. intros i d Hi Hd.
  destruct (Nat.eqb_spec i r) as [->|N]; [apply sret_done; exact Hd|].
  eapply (sret_eval never d _ _ (fun v => S r <= i -> v = 0%Z)).
  - destruct Hd as (h & Hd & Hu). eapply ret_mono; [apply (entry_of never eq d n c h i r Hd); lia|]. intros v -> Hi'. apply Hu; lia.
  - intros v Hv. destruct (upper_dims _ _ Hd) as [_ ->]. apply (sret_for never (fun _ d => upper_from (S r) d) c 0); [exact Hd|]. intros j t Hj Ht.
    eapply (sret_eval never t _ _ (fun p => S r <= i -> p = 0%Z)).
    + pose proof Ht as (h & Hh & _). eapply ret_bind; [apply (entry_of never eq t n c h r j Hh); lia|]. intros a _. apply ret_ok. intros Hi'. rewrite Hv by exact Hi'. reflexivity.
    + intros p Hp. apply (assign_upper _ (fun x => (x - p)%Z)); auto; [lia|lia|]. intros Hi' x. rewrite Hp by exact Hi'. apply Z.sub_0_r.
Qed.
Lemma rows_upper k : forall r m, r + k = n -> upper_from r m -> sret never (rref_rows U k r r m) (fun d => exists h, mat_of eq d n c h).
Proof.
  induction k as [|k IH]; intros r m Hk Hm; cbn [rref_rows]; [apply sret_done; destruct Hm as (h & Hh & _); eauto|].
  destruct (upper_dims _ _ Hm) as [Dr Dc]. rewrite Dc. destruct (Nat.leb_spec c r); [lia|].
  unfold pivot_fuel. cbn [find_pivot]. pose proof Hm as (h & Hh & Hu). destruct (Hu r ltac:(lia)) as [_ Ar].
  eapply (sret_eval never m _ _ (fun o => o = Some (r, r))).
  { eapply ret_bind; [apply (entry_of never eq m n c h r r Hh); lia|]. intros x ->. eapply (ret_bind never) with (P := fun e => e = false); [|intros e ->; apply ret_ok; reflexivity].
    apply ret_ok. apply Z.eqb_neq. cbn. lia. }
  intros o ->. unfold swap_rows. rewrite Nat.eqb_refl. cbn [andthen done].
  eapply sret_eval; [apply (entry_of never eq m n c h r r Hh); lia|]. intros v ->. rewrite Dc.
  eapply sret_andthen; [apply (sret_for never (fun _ d => upper_from (S r) d) c 0)|].
  - exists h. split; [exact Hh|]. intros i Hi. apply Hu. lia.
  - intros j d Hj Hd. apply (assign_upper _ (fun x => (x * h r r)%Z)); auto; [lia|lia| |lia].
    intros x. cbn [divA units rd]. unfold unit_div. rewrite Ar. reflexivity.
  - intros d Hd. cbn beta in Hd. eapply sret_andthen; [apply clear_upper; [lia|exact Hd]|]. intros t Ht. replace (r + 1) with (S r) by lia. apply IH; [lia|exact Ht].
Qed.
Lemma rref_upper m h : mat_of eq m n c h -> unit_upper n 0 h -> sret never (inplace_rref U m) (fun d => exists h, mat_of eq d n c h).
Proof.
  intros Hm Hu. unfold inplace_rref. destruct (mat_of_dims eq m n c h Hm) as (-> & _). apply rows_upper; [reflexivity|]. exists h. auto.
Qed.
End Run.
Lemma rref_units n c g : n <= c -> unit_upper n 0 g -> exists r, rref U (table n c g) = Ok r.
Proof.
  intros Hc Hu. assert (H : ret never (rref U (table n c g)) (fun _ => True)).
  { unfold rref. eapply ret_bind; [apply (Mat_copy_ok U never eq _ n c g (table_of n c g))|]. intros d Hd. eapply ret_mono; [apply ret_final, (rref_upper n c Hc d g Hd Hu)|]. auto. }
  destruct (ret_False _ _ H) as (r & E & _). eauto.
Qed.
