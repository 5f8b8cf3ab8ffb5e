(** Lemmas about the Vec model, for every element type. *)
From Coq Require Import Ascii.
From Verif Require Import Base IntModel IOModel ElemModel ElemSpec ElemProofs VecModel.
Local Open Scope nat_scope.
Local Open Scope list_scope.

Section VecProofs.
Context {T A : Type} (ab : halt -> Prop) (R R' : T -> A -> Prop).

Lemma assign_at_ok (op : T -> option T -> res T) x n P i y (Q : list T -> Prop) Q' :
  seqP x n P -> i < n -> (forall e, P i e -> ret ab (op e y) (Q' i)) ->
  (forall j e, j < n -> j <> i -> P j e -> Q' j e) ->
  (forall x', seqP x' n Q' -> Q x') ->
  sret ab (assign_at op x i y) Q.
Proof.
  intros Hx Hi Hop Hrest HQ. unfold assign_at. eapply sret_eval.
  - eapply ret_bind; [apply (seqP_get ab _ _ _ i Hx Hi)|exact Hop].
  - intros e He. apply sret_done, HQ. eapply seqP_set; eauto.
Qed.

(** state of the loop after i steps: f applied below i *)
Definition upto (f : A -> A -> A) (v w : nat -> A) (i : nat) (j : nat) (e : T) : Prop :=
  if j <? i then R' e (f (v j) (w j)) else R e (v j).
Lemma upto_0 f v w x n : seq_of R x n v -> seqP x n (upto f v w 0).
Proof. auto. Qed.
Lemma upto_n f v w x n : seqP x n (upto f v w n) -> seq_of R' x n (fun i => f (v i) (w i)).
Proof.
  intros H. apply seqP_of. eapply seqP_mono; eauto. intros i e Hi. unfold upto.
  destruct (Nat.ltb_spec i n); [auto|lia].
Qed.
Lemma upto_at f v w i e : upto f v w i i e -> R e (v i).
Proof. unfold upto. rewrite Nat.ltb_irrefl. auto. Qed.
Lemma upto_step f v w i j e : j <> i -> upto f v w i j e -> upto f v w (1 + i) j e.
Proof. unfold upto. intros N. destruct (Nat.ltb_spec j i), (Nat.ltb_spec j (1 + i)); auto; lia. Qed.
Lemma upto_new f v w i e : R' e (f (v i) (w i)) -> upto f v w (1 + i) i e.
Proof. unfold upto. destruct (Nat.ltb_spec i (1 + i)); auto; lia. Qed.

Lemma vec_assign_pt op f x y n v w :
  (forall i e d, i < n -> R e (v i) -> R d (w i) -> ret ab (op e (Some d)) (fun z => R' z (f (v i) (w i)))) -> seq_of R x n v ->
  match y with None => forall i, i < n -> w i = v i | Some y => seq_of R y n w end ->
  sret ab (vec_assign op x y) (fun r => seq_of R' r n (fun i => f (v i) (w i))).
Proof.
  intros Hop Hx Hy. unfold vec_assign.
  assert (L : length (rd x y) = length x).
  { destruct y as [y|]; cbn; auto. apply seqP_of in Hx, Hy. apply seqP_length in Hx, Hy. congruence. }
  rewrite L, Nat.eqb_refl. cbn [negb]. assert (Lx : length x = n) by apply Hx. rewrite Lx.
  eapply sret_mono; [|intros r; apply upto_n].
  apply (sret_for ab (fun i r => seqP r n (upto f v w i)) n 0).
  - apply upto_0, Hx.
  - intros i d Hi Hd. eapply (sret_eval ab d _ _ (fun e => R e (w i))).
    + destruct y as [y|]; cbn [rd].
      * apply (seqP_get ab y n _ i Hy). lia.
      * eapply ret_mono; [apply (seqP_get ab d n _ i Hd); lia|]. intros e He. apply upto_at in He. rewrite Hy by lia. exact He.
    + intros e He. eapply assign_at_ok; [exact Hd|lia| | |intros x' Hx'; exact Hx'].
      * intros e' He'. apply upto_at in He'. eapply ret_mono; [apply Hop; eauto; lia|]. intros z. apply upto_new.
      * intros j e' Hj N. apply upto_step, N.
Qed.
Lemma vec_assign_ok op f x y n v w : assign_exact ab R R R' op f -> seq_of R x n v ->
  match y with None => forall i, i < n -> w i = v i | Some y => seq_of R y n w end ->
  sret ab (vec_assign op x y) (fun r => seq_of R' r n (fun i => f (v i) (w i))).
Proof. intros [Hop _]. apply vec_assign_pt. auto. Qed.
Lemma vec_assign_bad op (x : list T) y : length x <> length (rd x y) -> vec_assign op x y = (x, Throw InvalidArgument).
Proof. intros H. unfold vec_assign. apply Nat.eqb_neq in H. rewrite H. reflexivity. Qed.
Lemma vec_binary_pt op f x y n v w :
  (forall i e d, i < n -> R e (v i) -> R d (w i) -> ret ab (op e (Some d)) (fun z => R' z (f (v i) (w i)))) ->
  seq_of R x n v -> seq_of R y n w ->
  ret ab (vec_binary op x y) (fun r => seq_of R' r n (fun i => f (v i) (w i))).
Proof.
  intros Hop Hx Hy. pose proof (vec_assign_pt op f x (Some y) n v w Hop Hx Hy) as H.
  unfold vec_assign in H. unfold vec_binary. cbn [rd] in H.
  assert (L : length y = length x) by (destruct Hx, Hy; lia). rewrite L in *.
  rewrite Nat.eqb_refl in *. cbn [negb] in *. apply ret_final. exact H.
Qed.
Lemma vec_binary_ok op f x y n v w : assign_exact ab R R R' op f -> seq_of R x n v -> seq_of R y n w ->
  ret ab (vec_binary op x y) (fun r => seq_of R' r n (fun i => f (v i) (w i))).
Proof. intros [Hop _]. apply vec_binary_pt. auto. Qed.
Lemma vec_binary_bad op (x y : list T) : length x <> length y -> vec_binary op x y = Throw InvalidArgument.
Proof. intros H. unfold vec_binary. apply Nat.eqb_neq in H. rewrite H. reflexivity. Qed.

Lemma scale_val_pt op (f : A -> A -> A) x a n v c : (forall i e, i < n -> R e (v i) -> ret ab (op e (Some a)) (fun z => R' z (f (v i) c))) -> seq_of R x n v ->
  sret ab (scale_assign op x (Val a)) (fun r => seq_of R' r n (fun i => f (v i) c)).
Proof.
  intros Hop Hx. unfold scale_assign. assert (Lx : length x = n) by apply Hx. rewrite Lx.
  eapply sret_mono; [|intros r; apply (upto_n f v (fun _ => c))].
  apply (sret_for ab (fun i r => seqP r n (upto f v (fun _ => c) i)) n 0).
  - apply upto_0, Hx.
  - intros i d Hi Hd. eapply assign_at_ok; [exact Hd|lia| | |intros x' Hx'; exact Hx'].
    + intros e' He'. apply upto_at in He'. eapply ret_mono; [apply (Hop i); eauto; lia|]. intros z. apply (upto_new f v (fun _ => c)).
    + intros j e' Hj N. apply upto_step, N.
Qed.
Lemma scale_val_ok S op f x a n v c : assign_exact ab R S R' op f -> seq_of R x n v -> S a c ->
  sret ab (scale_assign op x (Val a)) (fun r => seq_of R' r n (fun i => f (v i) c)).
Proof. intros [Hop _] Hx Ha. apply scale_val_pt; auto. Qed.
End VecProofs.

(** Scaling by an own element: what happens is that the elements after the k-th are
    scaled by the new k-th element. *)
Section Own.
Context {T A : Type} (ab : halt -> Prop) (R S R' : T -> A -> Prop).
Lemma scale_elem_ok op f x k n v : assign_exact ab R S R' op f -> seq_of R x n v -> k < n ->
  (forall e, R e (v k) -> S e (v k)) -> (forall e, R' e (f (v k) (v k)) -> S e (f (v k) (v k))) ->
  sret ab (scale_assign op x (Elem k)) (fun r => seq_of R' r n (fun i => f (v i) (if i <=? k then v k else f (v k) (v k)))).
Proof.
  intros [Hop Hself] Hx Hk S1 S2. unfold scale_assign. assert (Lx : length x = n) by apply Hx. rewrite Lx.
  set (w := fun i => if i <=? k then v k else f (v k) (v k)).
  eapply sret_mono; [|intros r; apply (upto_n R R' f v w)].
  apply (sret_for ab (fun i r => seqP r n (upto R R' f v w i)) n 0).
  - apply upto_0, Hx.
  - intros i d Hi Hd. destruct (Nat.eqb_spec i k) as [->|N].
    + eapply assign_at_ok; [exact Hd|lia| | |intros x' Hx'; exact Hx'].
      * intros e He. apply upto_at in He. eapply ret_mono; [apply Hself; eauto|]. intros z Hz. apply upto_new.
        unfold w. rewrite Nat.leb_refl. exact Hz.
      * intros j e' Hj N. apply upto_step, N.
    + eapply (sret_eval ab d _ _ (fun e => S e (w i))).
      * eapply ret_mono; [apply (seqP_get ab d n _ k Hd); lia|]. intros e. unfold upto, w.
        destruct (Nat.ltb_spec k i), (Nat.leb_spec i k); try lia; auto. rewrite Nat.leb_refl. auto.
      * intros a Ha. eapply assign_at_ok; [exact Hd|lia| | |intros x' Hx'; exact Hx'].
        -- intros e' He'. apply upto_at in He'. eapply ret_mono; [apply Hop; eauto|]. intros z. apply upto_new.
        -- intros j e' Hj Nj. apply upto_step, Nj.
Qed.
End Own.

(** *** Products *)
Section Products.
Context {T A : Type} (E : ops T) (ab : halt -> Prop) (R : T -> A -> Prop) (zero : A) (fadd fsub fmul : A -> A -> A).
Hypotheses (H0 : R (of_int E 0) zero) (Hadd : assign_exact ab R R R (addA E) fadd)
  (Hsub : binary_exact ab R (sub E) fsub) (Hmul : binary_exact ab R (mul E) fmul).

Local Notation dot_sum n v w := (sum_to zero fadd n (fun i => fmul (v i) (w i))).
Lemma dot_ok x y n v w : seq_of R x n v -> seq_of R y n w -> ret ab (dot E x y) (fun r => R r (dot_sum n v w)).
Proof.
  intros Hx Hy. unfold dot. assert (Lx : length x = n) by apply Hx. assert (Ly : length y = n) by apply Hy.
  rewrite Lx, Ly, Nat.eqb_refl. cbn [negb]. apply ret_final.
  apply (sret_for ab (fun i r => R r (dot_sum i v w)) n 0); [exact H0|].
  intros i r Hi Hr. eapply sret_eval; [|intros a Ha; apply sret_done; exact Ha].
  eapply ret_bind; [apply (seqP_get ab x n _ i Hx); lia|]. intros a Ha.
  eapply ret_bind; [apply (seqP_get ab y n _ i Hy); lia|]. intros b Hb.
  eapply ret_bind; [apply Hmul; [exact Ha|exact Hb]|]. intros p Hp. cbn [Nat.add sum_to]. apply Hadd; auto.
Qed.
Lemma dot_bad (x y : list T) : length x <> length y -> dot E x y = Throw InvalidArgument.
Proof. intros H. unfold dot. apply Nat.eqb_neq in H. rewrite H. reflexivity. Qed.

Lemma minor_ok x y n v w i j : seq_of R x n v -> seq_of R y n w -> i < n -> j < n ->
  ret ab (minor E x y i j) (fun r => R r (fsub (fmul (v i) (w j)) (fmul (v j) (w i)))).
Proof.
  intros Hx Hy Hi Hj. unfold minor.
  eapply ret_bind; [apply (seqP_get ab x n _ i Hx Hi)|]. intros a Ha.
  eapply ret_bind; [apply (seqP_get ab y n _ j Hy Hj)|]. intros b Hb.
  eapply ret_bind; [apply Hmul; [exact Ha|exact Hb]|]. intros p Hp.
  eapply ret_bind; [apply (seqP_get ab x n _ j Hx Hj)|]. intros c Hc.
  eapply ret_bind; [apply (seqP_get ab y n _ i Hy Hi)|]. intros d Hd.
  eapply ret_bind; [apply Hmul; [exact Hc|exact Hd]|]. intros q Hq. apply Hsub; auto.
Qed.
Local Notation cross_at := (cross_at fsub fmul).
Lemma cross_ok x y v w : seq_of R x 3 v -> seq_of R y 3 w -> ret ab (cross E x y) (fun r => seq_of R r 3 (cross_at v w)).
Proof.
  intros Hx Hy. unfold cross. assert (Lx : length x = 3) by apply Hx. assert (Ly : length y = 3) by apply Hy.
  rewrite Lx, Ly. cbn [Nat.eqb andb negb].
  eapply ret_bind; [apply (minor_ok x y 3 v w 1 2 Hx Hy); lia|]. intros a Ha.
  eapply ret_bind; [apply (minor_ok x y 3 v w 2 0 Hx Hy); lia|]. intros b Hb.
  eapply ret_bind; [apply (minor_ok x y 3 v w 0 1 Hx Hy); lia|]. intros c Hc.
  cbn. apply ret_ok. split; auto. intros i Hi. destruct i as [|[|[|i]]]; [| | |lia]; cbn; eauto.
Qed.
Lemma cross_bad (x y : list T) : ~ (length x = 3 /\ length y = 3) -> cross E x y = Throw InvalidArgument.
Proof.
  intros H. unfold cross. destruct (Nat.eqb_spec (length x) 3), (Nat.eqb_spec (length y) 3); cbn; tauto.
Qed.
End Products.

(** *** Equality *)
Section Equality.
Context {T A : Type} (E : ops T) (ab : halt -> Prop) (R : T -> A -> Prop) (eqA : A -> A -> Prop).
Hypothesis Heq : forall x y a b, R x a -> R y b -> ret ab (eqb E x y) (fun r => r = true <-> eqA a b).
Lemma V_eq_ok x y n v w : seq_of R x n v -> seq_of R y n w ->
  ret ab (V_eq E x y) (fun r => r = true <-> forall i, i < n -> eqA (v i) (w i)).
Proof.
  intros Hx Hy. unfold V_eq. assert (Lx : length x = n) by apply Hx. assert (Ly : length y = n) by apply Hy.
  rewrite Lx, Ly, Nat.eqb_refl. cbn [negb].
  assert (G : forall m i, i + m = n -> ret ab (eq_loop E m i x y) (fun r => r = true <-> forall j, i <= j < n -> eqA (v j) (w j))).
  { induction m as [|m IH]; intros i Hi; cbn [eq_loop].
    - apply ret_ok. split; auto. intros _ j Hj. lia.
    - eapply ret_bind; [apply (seqP_get ab x n _ i Hx); lia|]. intros a Ha.
      eapply ret_bind; [apply (seqP_get ab y n _ i Hy); lia|]. intros b Hb.
      eapply ret_bind; [apply Heq; [exact Ha|exact Hb]|]. intros e He. destruct e.
      + eapply ret_mono; [apply IH; lia|]. cbn. intros r Hr. rewrite Hr. split; intros H j Hj.
        * destruct (Nat.eq_dec j i) as [->|]; [apply He; auto|apply H; lia].
        * apply H. lia.
      + apply ret_ok. split; [discriminate|]. intros H. apply He. apply H. lia. }
  eapply ret_mono; [apply (G n 0); lia|]. cbn. intros r Hr. rewrite Hr. split; intros H j Hj; apply H; lia.
Qed.
Lemma V_eq_bad (x y : list T) : length x <> length y -> V_eq E x y = Ok false.
Proof. intros H. unfold V_eq. apply Nat.eqb_neq in H. rewrite H. reflexivity. Qed.
End Equality.

(** *** Construction *)
Lemma push_all_ok {T S} (conv : S -> res T) ab (P : nat -> T -> Prop) l m n : n <= m -> m <= length l ->
  (forall i s, i < n -> nth_error l i = Some s -> ret ab (conv s) (P i)) ->
  ret ab (push_all conv l n) (fun r => seqP r n P).
Proof.
  intros Hn Hl Hc. unfold push_all. apply ret_final.
  apply (sret_for ab (fun i r => seqP r i P) n 0); [apply seqP_nil|].
  intros i d Hi Hd. eapply (sret_eval ab d _ _ (P i)).
  - eapply ret_bind; [apply (seqP_get ab l (length l) _ i (seqP_self l)); lia|]. intros s Hs. apply Hc; auto. lia.
  - intros e He. apply sret_done. apply seqP_snoc; auto.
Qed.
Lemma setEntries_array_ok {T S} (conv : S -> res T) ab (P : nat -> T -> Prop) v vals size :
  length v <= size -> size <= length vals ->
  (forall i s, i < length v -> nth_error vals i = Some s -> ret ab (conv s) (P i)) ->
  sret ab (setEntries_array conv v vals size) (fun r => seqP r (length v) P).
Proof.
  intros Hn Hl Hc. unfold setEntries_array. destruct (Nat.ltb_spec size (length v)); [lia|].
  eapply sret_mono.
  - apply (sret_for ab (fun i r => seqP r (length v) (fun j e => if j <? i then P j e else True)) (length v) 0).
    + split; auto. intros i Hi. destruct (get_at_lt v i Hi) as (e & _ & He). exists e. split; auto. exact I.
    + intros i d Hi Hd. eapply (sret_eval ab d _ _ (P i)).
      * eapply ret_bind; [apply (seqP_get ab vals _ _ i (seqP_self vals)); lia|]. intros s Hs. apply Hc; auto. lia.
      * intros e He. apply sret_done. eapply seqP_set; [exact Hd|lia| |].
        -- destruct (Nat.ltb_spec i (1 + i)); auto.
        -- intros j e' Hj N. cbn beta. destruct (Nat.ltb_spec j i), (Nat.ltb_spec j (1 + i)); auto; lia.
  - intros r Hr. eapply seqP_mono; [exact Hr|]. intros i e Hi. cbn beta. destruct (Nat.ltb_spec i (0 + length v)); auto. lia.
Qed.

Lemma list_ext {T} (x y : list T) : length x = length y -> (forall i, i < length x -> nth_error x i = nth_error y i) -> x = y.
Proof.
  revert y. induction x as [|a x IH]; intros [|b y] L H; cbn in *; try lia; auto.
  pose proof (H 0 ltac:(lia)) as H0. cbn in H0. injection H0 as <-. f_equal. apply IH; [lia|].
  intros i Hi. apply (H (S i)). lia.
Qed.
Lemma seqP_eq {T} (x y : list T) n : length y = n -> seqP x n (fun i e => nth_error y i = Some e) -> x = y.
Proof.
  intros L [Lx H]. apply list_ext; [lia|]. intros i Hi. rewrite Lx in Hi. destruct (H i Hi) as (e & E1 & E2). congruence.
Qed.
Lemma concatenate_ok {T} (E : ops T) (x y : list T) : concatenate E x y = Ok (x ++ y).
Proof.
  unfold concatenate. set (n := length x + length y).
  assert (G : ret never (final (andthen (for_ (length x) 0 (fun i r => eval r (get_at x i) (fun e => done (replace r i e))) (Vec_size E n))
        (for_ (length y) 0 (fun k r => eval r (get_at y k) (fun e => done (replace r (length x + k) e)))))) (fun r => r = x ++ y)).
  { apply ret_final. eapply sret_andthen.
    - apply (sret_for never (fun i r => seqP r n (fun j e => j < i -> nth_error (x ++ y) j = Some e)) (length x) 0).
      + apply seqP_repeat. intros i Hi Hi'. lia.
      + intros i r Hi Hr. eapply (sret_eval never r _ _ (fun e => nth_error x i = Some e)).
        * apply (seqP_get never x _ _ i (seqP_self x)). lia.
        * intros e He. apply sret_done. eapply seqP_set; [exact Hr|unfold n; lia| |].
          -- intros _. rewrite nth_error_app1 by lia. exact He.
          -- intros j e' Hj N H Hj'. apply H. lia.
    - intros r Hr. eapply sret_mono.
      + apply (sret_for never (fun i r => seqP r n (fun j e => j < length x + i -> nth_error (x ++ y) j = Some e)) (length y) 0).
        * eapply seqP_mono; [exact Hr|]. intros i e Hi H Hi'. apply H. lia.
        * intros i s Hi Hs. eapply (sret_eval never s _ _ (fun e => nth_error y i = Some e)).
          -- apply (seqP_get never y _ _ i (seqP_self y)). lia.
          -- intros e He. apply sret_done. eapply seqP_set; [exact Hs|unfold n; lia| |].
             ++ intros _. rewrite nth_error_app2 by lia. replace (length x + i - length x) with i by lia. exact He.
             ++ intros j e' Hj N H Hj'. apply H. lia.
      + intros s Hs. apply (seqP_eq s _ n); [apply app_length|]. eapply seqP_mono; [exact Hs|]. intros i e Hi H. apply H. unfold n in Hi. lia. }
  apply ret_False in G as (r & E1 & ->). exact E1.
Qed.

(** *** Printing *)
Lemma separated_snoc l t : l <> [] -> separated (l ++ [t]) = separated l ++ [","%char; " "%char] ++ t.
Proof.
  induction l as [|a l IH]; [congruence|]. intros _. destruct l as [|b l]; [reflexivity|].
  change ((a :: b :: l) ++ [t]) with (a :: (b :: l) ++ [t]).
  change (separated (a :: b :: l)) with (a ++ [","%char; " "%char] ++ separated (b :: l)).
  rewrite <- !app_assoc. rewrite <- (IH ltac:(discriminate)). reflexivity.
Qed.
Lemma V_print_ok {T} (pr : ostream -> T -> ostream) (txt : T -> list ascii) o x :
  (forall o e, In e x -> owidth o = 0%Z -> obuf (pr o e) = obuf o ++ txt e /\ owidth (pr o e) = 0%Z) -> owidth o = 0%Z ->
  exists o', V_print pr o x = Ok o' /\ owidth o' = 0%Z /\
    obuf o' = obuf o ++ ["("%char] ++ separated (map txt x) ++ [")"%char].
Proof.
  intros Hpr Ho.
  assert (Hput : forall o s, owidth o = 0%Z -> obuf (put o s) = obuf o ++ s /\ owidth (put o s) = 0%Z).
  { intros [b w f] s H. cbn in H. subst. split; reflexivity. }
  unfold V_print. destruct x as [|e0 x] using rev_ind.
  - cbn. destruct (Hput o ["("%char] Ho) as [H1 H2]. destruct (Hput _ [")"%char] H2) as [H3 H4].
    eexists. split; [reflexivity|]. split; [exact H4|]. rewrite H3, H1, <- app_assoc. reflexivity.
  - clear IHx. rewrite app_length. cbn [length]. replace (length x + 1 - 1) with (length x) by lia.
    set (o1 := put o ["("%char]). destruct (Hput o ["("%char] Ho) as [B1 W1]. fold o1 in B1, W1.
    assert (G : ret never (final (for_ (length x) 0 (fun i o => eval o (get_at (x ++ [e0]) i) (fun e => done (put (pr o e) [","%char; " "%char]))) o1))
      (fun o2 => owidth o2 = 0%Z /\ obuf o2 = obuf o1 ++ (separated (map txt x) ++ match x with [] => [] | _ => [","%char; " "%char] end))).
    { apply ret_final. eapply sret_mono.
      - apply (sret_for never (fun i o2 => owidth o2 = 0%Z /\ obuf o2 = obuf o1 ++ (separated (map txt (firstn i x)) ++ match firstn i x with [] => [] | _ => [","%char; " "%char] end)) (length x) 0).
        + split; auto. cbn. rewrite app_nil_r. reflexivity.
        + intros i o2 Hi [W2 B2]. destruct (get_at_lt (x ++ [e0]) i) as (e & Ge & Ne); [rewrite app_length; cbn; lia|].
          rewrite Ge. cbn [eval]. apply sret_done. destruct (Hpr o2 e (nth_error_In _ _ Ne) W2) as [H1 H2]. destruct (Hput _ [","%char; " "%char] H2) as [H3 H4].
          split; auto. rewrite H3, H1, B2. rewrite nth_error_app1 in Ne by lia.
          assert (Hf : firstn (1 + i) x = firstn i x ++ [e]).
          { clear -Ne. revert x Ne. induction i as [|i IH]; intros [|b x] Ne; cbn in *; try discriminate; [congruence|]. f_equal. apply IH. exact Ne. }
          rewrite Hf, map_app. cbn [map]. destruct (firstn i x) as [|c l] eqn:El.
          * cbn. rewrite <- !app_assoc. reflexivity.
          * rewrite separated_snoc by discriminate. rewrite <- !app_assoc. cbn [app]. reflexivity.
      - cbn beta. rewrite Nat.add_0_l, firstn_all. auto. }
    apply ret_False in G as (o2 & E2 & W2 & B2). rewrite E2. cbn [bind].
    destruct (Nat.ltb_spec (length x) (length x + 1)); [|lia].
    unfold get_at. rewrite nth_error_app2, Nat.sub_diag by lia. cbn [nth_error bind].
    destruct (Hpr o2 e0 (in_elt e0 x []) W2) as [H1 H2]. destruct (Hput _ [")"%char] H2) as [H3 H4].
    eexists. split; [reflexivity|]. split; [exact H4|]. rewrite H3, H1, B2, B1, map_app. cbn [map].
    destruct x as [|c l].
    + cbn. rewrite <- !app_assoc. reflexivity.
    + rewrite separated_snoc by discriminate. rewrite <- !app_assoc. reflexivity.
Qed.
