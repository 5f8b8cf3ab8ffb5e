(** Every call of a program of LinSpec does what it means, for element types whose
    operations are exact. *)
From Coq Require Import ZArith List Lia.
From Verif Require Import Base IntModel IntBasics ElemModel ElemSpec ElemProofs ElemInst VecModel VecProofs MatModel MatSpec MatProofs LinSpec LinCalls.
From Verif Require PropsMat PropsVec.
Import ListNotations.
Local Open Scope nat_scope.

(** m throws x, or stops in an allowed way *)
Definition raises (ab : halt -> Prop) (x : exn) {A} (m : res A) : Prop := m = Throw x \/ exists h, ab h /\ m = stop h.

(** The element type: what is needed for the features of a program. *)
Record exact_elements {T A} (E : ops T) (G : algebra A) (ab : halt -> Prop) (R : T -> A -> Prop) (may : feature -> Prop) : Prop := {
  x_zero : R (of_int E 0) (zero G);
  x_one : R (of_int E 1) (one G);
  x_lit : forall k, may (FLit k) -> R (of_int E k) (lit G k);
  x_neg : may FNeg -> forall x a, R x a -> ret ab (neg E x) (fun z => R z (fneg G a));
  x_add : binary_exact ab R (add E) (fadd G);
  x_sub : binary_exact ab R (sub E) (fsub G);
  x_mul : binary_exact ab R (mul E) (fmul G);
  x_addA : assign_exact ab R R R (addA E) (fadd G);
  x_subA : assign_exact ab R R R (subA E) (fsub G);
  x_eq : forall x y a b, R x a -> R y b -> ret ab (eqb E x y) (fun e => e = feq G a b);
  x_mulA : may FMulA -> assign_exact ab R R R (mulA E) (fmul G);
  x_div : may FDiv -> forall x y a b, R x a -> R y b ->
    if feq G b (zero G) then raises ab DivideByZero (div E x y) else ret ab (div E x y) (fun z => R z (fdiv G a b));
  x_divA : may FDivA -> forall x y a b, R x a -> R y b ->
    if feq G b (zero G) then raises ab DivideByZero (divA E x (Some y)) else ret ab (divA E x (Some y)) (fun z => R z (fdiv G a b));
  x_divA_self : may FDivA -> forall x a, R x a ->
    if feq G a (zero G) then raises ab DivideByZero (divA E x None) else ret ab (divA E x None) (fun z => R z (fdiv G a a));
  x_ratio : may FDivA -> forall a, feq G a (zero G) = false -> feq G (fdiv G a a) (zero G) = false;
  x_row : may FExpand -> forall m n g, mat_of R m n n g -> 0 < n -> ret ab (row_cofactor_expansion E m) (fun x => R x (fdet G n g));
  x_col : may FExpand -> forall m n g, mat_of R m n n g -> 0 < n -> ret ab (col_cofactor_expansion E m) (fun x => R x (fdet G n g));
  x_det : may FField -> forall m n g, mat_of R m n n g -> ret ab (determinant E m) (fun x => R x (fdet G n g));
  x_rref : may FField -> forall m n c g, mat_of R m n c g -> ret ab (rref E m) (fun r => exists h, mat_of R r n c h /\ is_reduced G n c g h);
  x_rrefA : may FField -> forall m n c g, mat_of R m n c g ->
    sret ab (inplace_rref E m) (fun r => exists h, mat_of R r n c h /\ is_reduced G n c g h);
  x_inverse : may FField -> forall m n g, mat_of R m n n g ->
    if feq G (fdet G n g) (zero G) then raises ab DomainError (inverse E m)
    else ret ab (inverse E m) (fun r => exists h, mat_of R r n n h /\ is_inverse G n g h) }.

Section Proofs.
Context {T A : Type} (E : ops T) (G : algebra A) (ab : halt -> Prop) (R : T -> A -> Prop) (may : feature -> Prop).
Hypothesis X : exact_elements E G ab R may.

Definition holds_value (ms : values A) (st : objects T) : Prop :=
  (forall n, R (sc st n) (scalar_of ms n)) /\
  (forall n, seq_of R (ve st n) (fst (vector_of ms n)) (snd (vector_of ms n))) /\
  (forall n, mat_of R (ma st n) (fst (fst (matrix_of ms n))) (snd (fst (matrix_of ms n))) (snd (matrix_of ms n))) /\
  (forall n, bo st n = truth_of ms n).

(** what a call does agrees with the effect e *)
Definition follows (ms : values A) (e : effect A) (p : outcome (objects T)) : Prop :=
  (snd p = Ok tt /\ thrown e = None /\ holds_value (after e ms) (fst p)) \/
  (exists x, snd p = Throw x /\ thrown e = Some x /\ holds_value (after e ms) (fst p)) \/
  (exists h, ab h /\ snd p = stop h).

Lemma follows_stop ms e st h : ab h -> follows ms e (st, stop h).
Proof. intros H. right. right. exists h. auto. Qed.
Lemma eval_stop {S B} (st : S) h (k : B -> outcome S) : eval st (stop h) k = (st, stop h).
Proof. destruct h; reflexivity. Qed.
Lemma stop_eq {B C} h (m : res B) : m = stop h -> match m with Abort => @Abort C | UB => UB | _ => OutOfFuel end = stop h.
Proof. intros ->. destruct h; reflexivity. Qed.

Lemma put_same {B} (P : nat -> B -> Prop) f d x : P d x -> (forall n, P n (f n)) -> forall n, P n (put_at f d x n).
Proof. intros H F n. unfold put_at. destruct (Nat.eqb_spec n d); subst; auto. Qed.
Lemma put_rel {B C} (P : B -> C -> Prop) f g d x y : P x y -> (forall n, P (f n) (g n)) -> forall n, P (put_at f d x n) (put_at g d y n).
Proof. intros H F n. unfold put_at. destruct (Nat.eqb_spec n d); subst; auto. Qed.

Lemma to_sc_ok ms st d m a : holds_value ms st -> ret ab m (fun x => R x a) -> follows ms (SetS d a) (to_sc st d m).
Proof.
  intros (Hs & Hv & Hm & Hb) [(x & -> & Hx)|(h & Hh & ->)]; unfold to_sc; [|rewrite eval_stop; apply follows_stop; auto].
  left. cbn. splits; auto. unfold holds_value; cbn. splits; auto. apply (put_rel R); auto.
Qed.
Lemma seq_put n v f g d x : seq_of R x n v ->
  (forall k, seq_of R (f k) (fst (g k)) (snd (g k))) ->
  forall k, seq_of R (put_at f d x k) (fst (put_at g d (n, v) k)) (snd (put_at g d (n, v) k)).
Proof. intros H F k. unfold put_at. destruct (Nat.eqb_spec k d); subst; auto. Qed.
Lemma mat_put r c v f g d x : mat_of R x r c v ->
  (forall k, mat_of R (f k) (fst (fst (g k))) (snd (fst (g k))) (snd (g k))) ->
  forall k, mat_of R (put_at f d x k) (fst (fst (put_at g d (r, c, v) k))) (snd (fst (put_at g d (r, c, v) k))) (snd (put_at g d (r, c, v) k)).
Proof. intros H F k. unfold put_at. destruct (Nat.eqb_spec k d); subst; auto. Qed.
Lemma holds_ve ms st d n v x : holds_value ms st -> seq_of R x n v -> holds_value (after (SetV d n v) ms) (set_ve st d x).
Proof. intros (Hs & Hv & Hm & Hb) Hx. unfold holds_value; cbn. splits; auto. apply seq_put; auto. Qed.
Lemma holds_ma ms st d r c g x : holds_value ms st -> mat_of R x r c g -> holds_value (after (SetM d r c g) ms) (set_ma st d x).
Proof. intros (Hs & Hv & Hm & Hb) Hx. unfold holds_value; cbn. splits; auto. apply mat_put; auto. Qed.
Lemma to_ve_ok ms st d m n v : holds_value ms st -> ret ab m (fun x => seq_of R x n v) -> follows ms (SetV d n v) (to_ve st d m).
Proof.
  intros H [(x & -> & Hx)|(h & Hh & ->)]; unfold to_ve; [|rewrite eval_stop; apply follows_stop; auto].
  left. cbn. splits; auto. apply holds_ve; auto.
Qed.
Lemma to_ma_ok ms st d m r c g : holds_value ms st -> ret ab m (fun x => mat_of R x r c g) -> follows ms (SetM d r c g) (to_ma st d m).
Proof.
  intros H [(x & -> & Hx)|(h & Hh & ->)]; unfold to_ma; [|rewrite eval_stop; apply follows_stop; auto].
  left. cbn. splits; auto. apply holds_ma; auto.
Qed.
Lemma to_bo_ok ms st d m b : holds_value ms st -> ret ab m (fun x => x = b) -> follows ms (SetB d b) (to_bo st d m).
Proof.
  intros (Hs & Hv & Hm & Hb) [(x & -> & Hx)|(h & Hh & ->)]; unfold to_bo; [|rewrite eval_stop; apply follows_stop; auto].
  left. cbn. splits; auto. unfold holds_value; cbn. splits; auto. apply (put_rel eq); auto.
Qed.
Lemma in_ve_ok ms st d p n v : holds_value ms st -> sret ab p (fun x => seq_of R x n v) -> follows ms (SetV d n v) (in_ve st d p).
Proof.
  intros H [(Hp & Hx)|(h & Hh & Hp)]; unfold in_ve; rewrite Hp; [|apply follows_stop; auto].
  left. cbn. splits; auto. apply holds_ve; auto.
Qed.
Lemma in_ma_ok ms st d p r c g : holds_value ms st -> sret ab p (fun x => mat_of R x r c g) -> follows ms (SetM d r c g) (in_ma st d p).
Proof.
  intros H [(Hp & Hx)|(h & Hh & Hp)]; unfold in_ma; rewrite Hp; [|apply follows_stop; auto].
  left. cbn. splits; auto. apply holds_ma; auto.
Qed.
(** calls that throw *)
Lemma raise_eval {B} ms st (m : res B) (k : B -> outcome (objects T)) x : holds_value ms st -> raises ab x m -> follows ms (Raise x) (eval st m k).
Proof.
  intros H [->|(h & Hh & ->)]; [|rewrite eval_stop; apply follows_stop; auto].
  right. left. exists x. cbn. auto.
Qed.
Lemma raise_in_ve ms st d p x : holds_value ms st -> (p = (ve st d, Throw x) \/ exists h, ab h /\ snd p = stop h) -> follows ms (Raise x) (in_ve st d p).
Proof.
  intros H [->|(h & Hh & E1)]; unfold in_ve; [|rewrite E1; apply follows_stop; auto].
  right. left. exists x. cbn. splits; auto. destruct H as (Hs & Hv & Hm & Hb). unfold holds_value; cbn. splits; auto.
  intros n. unfold put_at. destruct (Nat.eqb_spec n d); subst; auto.
Qed.
Lemma raise_in_ma ms st d p x : holds_value ms st -> (p = (ma st d, Throw x) \/ exists h, ab h /\ snd p = stop h) -> follows ms (Raise x) (in_ma st d p).
Proof.
  intros H [->|(h & Hh & E1)]; unfold in_ma; [|rewrite E1; apply follows_stop; auto].
  right. left. exists x. cbn. splits; auto. destruct H as (Hs & Hv & Hm & Hb). unfold holds_value; cbn. splits; auto.
  intros n. unfold put_at. destruct (Nat.eqb_spec n d); subst; auto.
Qed.
Lemma final_raise {S} (p : outcome S) s x : (p = (s, Throw x) \/ exists h, ab h /\ snd p = stop h) -> raises ab x (final p).
Proof.
  intros [->|(h & Hh & E1)]; [left; reflexivity|]. right. exists h. split; auto. unfold final. rewrite E1. destruct h; reflexivity.
Qed.

(** *** Division *)
Definition divisor := nonzero R (fun a => feq G a (zero G) = true).
Lemma divA_exact : may FDivA -> assign_exact ab R divisor R (divA E) (fdiv G).
Proof.
  intros F. split.
  - intros x y a b Hx [Hy N]. pose proof (x_divA _ _ _ _ _ X F x y a b Hx Hy) as H. destruct (feq G b (zero G)); [contradiction N; auto|exact H].
  - intros x a Hx [_ N]. pose proof (x_divA_self _ _ _ _ _ X F x a Hx) as H. destruct (feq G a (zero G)); [contradiction N; auto|exact H].
Qed.
Lemma raises_bind {B C} x (m : res B) (k : B -> res C) : raises ab x m -> raises ab x (bind m k).
Proof. intros [->|(h & Hh & ->)]; [left; reflexivity|right; exists h; split; auto; destruct h; reflexivity]. Qed.
Lemma eval_raises {S B} (s : S) (m : res B) k x : raises ab x m -> eval s m k = (s, Throw x) \/ exists h, ab h /\ snd (eval s m k) = stop h.
Proof. intros [->|(h & Hh & ->)]; [left; reflexivity|right; exists h; split; auto; rewrite eval_stop; reflexivity]. Qed.
Lemma for_first {S} n a (body : nat -> S -> outcome S) s x :
  (body a s = (s, Throw x) \/ exists h, ab h /\ snd (body a s) = stop h) -> 0 < n ->
  for_ n a body s = (s, Throw x) \/ exists h, ab h /\ snd (for_ n a body s) = stop h.
Proof.
  intros H Hn. destruct n as [|n]; [lia|]. cbn [for_]. destruct H as [->|(h & Hh & E1)]; [left; reflexivity|].
  right. exists h. split; auto. destruct (body a s) as [s' r]. cbn in E1. subst r. destruct h; reflexivity.
Qed.
Lemma vdiv_zero x n v a c : may FDivA -> seq_of R x n v -> 0 < n -> R a c -> feq G c (zero G) = true ->
  V_div_assign E x (Val a) = (x, Throw DivideByZero) \/ exists h, ab h /\ snd (V_div_assign E x (Val a)) = stop h.
Proof.
  intros F Hx Hn Ha Z. unfold V_div_assign, scale_assign. assert (Lx : length x = n) by apply Hx. rewrite Lx. apply for_first; auto.
  unfold assign_at. apply eval_raises. destruct Hx as [_ Hx]. destruct (Hx 0 Hn) as (e & E1 & He).
  unfold get_at. rewrite E1. cbn [bind]. pose proof (x_divA _ _ _ _ _ X F e a _ c He Ha) as H. rewrite Z in H. exact H.
Qed.
Lemma vdiv_own_zero x n v k : may FDivA -> seq_of R x n v -> k < n -> feq G (v k) (zero G) = true ->
  V_div_assign E x (Elem k) = (x, Throw DivideByZero) \/ exists h, ab h /\ snd (V_div_assign E x (Elem k)) = stop h.
Proof.
  intros F Hx Hk Z. unfold V_div_assign, scale_assign. assert (Lx : length x = n) by apply Hx. rewrite Lx. apply for_first; [|lia].
  destruct Hx as [_ Hx]. destruct (Hx 0) as (e & E1 & He); [lia|]. destruct (Hx k Hk) as (y & E2 & Hy).
  destruct (Nat.eqb_spec 0 k) as [<-|N].
  - unfold assign_at. apply eval_raises. unfold get_at. rewrite E1. cbn [bind].
    pose proof (x_divA_self _ _ _ _ _ X F e _ He) as H. rewrite Z in H. exact H.
  - assert (Gk : get_at x k = Ok y) by (unfold get_at; rewrite E2; reflexivity). rewrite Gk. cbn [eval].
    unfold assign_at. apply eval_raises. unfold get_at. rewrite E1. cbn [bind].
    pose proof (x_divA _ _ _ _ _ X F e y _ (v k) He Hy) as H. rewrite Z in H. exact H.
Qed.
Lemma entry_eq m r c g i j : mat_of R m r c g -> i < r -> j < c -> exists x, entry m i j = Ok x /\ R x (g i j).
Proof. intros Hm Hi Hj. destruct (entry_of never R m r c g i j Hm Hi Hj) as [(x & E1 & Hx)|(h & [] & _)]. exists x. auto. Qed.
Lemma mdiv_zero x r c g a b : may FDivA -> mat_of R x r c g -> 0 < r -> 0 < c -> R a b -> feq G b (zero G) = true ->
  M_div_assign E x (MVal a) = (x, Throw DivideByZero) \/ exists h, ab h /\ snd (M_div_assign E x (MVal a)) = stop h.
Proof.
  intros F Hx Hr Hc Ha Z. unfold M_div_assign, mat_scale_assign, for2. destruct (mat_of_dims R x r c g Hx) as (-> & -> & _).
  apply for_first; auto. apply for_first; auto. unfold assign_entry. apply eval_raises.
  destruct (entry_eq x r c g 0 0 Hx Hr Hc) as (e & -> & He). cbn [bind].
  pose proof (x_divA _ _ _ _ _ X F e a _ b He Ha) as H. rewrite Z in H. exact H.
Qed.
Lemma mdiv_own_zero x r c g p q : may FDivA -> mat_of R x r c g -> p < r -> q < c -> feq G (g p q) (zero G) = true ->
  M_div_assign E x (MElem p q) = (x, Throw DivideByZero) \/ exists h, ab h /\ snd (M_div_assign E x (MElem p q)) = stop h.
Proof.
  intros F Hx Hp Hq Z. unfold M_div_assign, mat_scale_assign, for2. destruct (mat_of_dims R x r c g Hx) as (-> & -> & _).
  apply for_first; [|lia]. apply for_first; [|lia].
  destruct (entry_eq x r c g 0 0 Hx) as (e & E1 & He); [lia|lia|]. destruct (entry_eq x r c g p q Hx Hp Hq) as (y & E2 & Hy).
  destruct (Nat.eqb_spec 0 p) as [<-|N]; [destruct (Nat.eqb_spec 0 q) as [<-|N]|]; cbn [andb].
  - unfold assign_entry. apply eval_raises. rewrite E1. cbn [bind].
    pose proof (x_divA_self _ _ _ _ _ X F e _ He) as H. rewrite Z in H. exact H.
  - rewrite E2. cbn [eval]. unfold assign_entry. apply eval_raises. rewrite E1. cbn [bind].
    pose proof (x_divA _ _ _ _ _ X F e y _ (g 0 q) He Hy) as H. rewrite Z in H. exact H.
  - rewrite E2. cbn [eval]. unfold assign_entry. apply eval_raises. rewrite E1. cbn [bind].
    pose proof (x_divA _ _ _ _ _ X F e y _ (g p q) He Hy) as H. rewrite Z in H. exact H.
Qed.
Lemma M_div_zero x r c g a b : may FDiv -> mat_of R x r c g -> 0 < r -> 0 < c -> R a b -> feq G b (zero G) = true ->
  raises ab DivideByZero (M_div E x a).
Proof.
  intros F Hx Hr Hc Ha Z. unfold M_div, fill, for2. destruct (mat_of_dims R x r c g Hx) as (-> & -> & _).
  eapply final_raise. apply for_first; auto. apply for_first; auto. apply eval_raises.
  destruct (entry_eq x r c g 0 0 Hx Hr Hc) as (e & -> & He). cbn [bind].
  pose proof (x_div _ _ _ _ _ X F e a _ b He Ha) as H. rewrite Z in H. exact H.
Qed.

(** *** Equality *)
Lemma all_equal_iff n f g : all_equal G n f g = true <-> forall i, i < n -> feq G (f i) (g i) = true.
Proof.
  unfold all_equal. rewrite forallb_forall. split.
  - intros H i Hi. apply H. apply in_seq. lia.
  - intros H i Hi. apply in_seq in Hi. apply H. lia.
Qed.
Lemma iff_eq (a b : bool) P : (a = true <-> P) -> (b = true <-> P) -> a = b.
Proof. intros H1 H2. destruct a, b; auto; [symmetry; apply H2, H1; auto|apply H1, H2; auto]. Qed.
Lemma x_eq_iff x y a b : R x a -> R y b -> ret ab (eqb E x y) (fun e => e = true <-> feq G a b = true).
Proof. intros Hx Hy. eapply ret_mono; [apply (x_eq _ _ _ _ _ X x y a b Hx Hy)|]. intros e ->. tauto. Qed.

(** *** Vectors *)
Lemma operand_vec ms st d b n w : holds_value ms st -> vector_of ms b = (n, w) ->
  match operand (ve st) d b with None => forall i, i < n -> w i = snd (vector_of ms d) i | Some y => seq_of R y n w end.
Proof.
  intros (_ & Hv & _) Eb. unfold operand. destruct (Nat.eqb_spec d b) as [->|N].
  - intros i Hi. rewrite Eb. reflexivity.
  - specialize (Hv b). rewrite Eb in Hv. exact Hv.
Qed.
Lemma vec_of ms st a n v : holds_value ms st -> vector_of ms a = (n, v) -> seq_of R (ve st a) n v.
Proof. intros (_ & Hv & _) Ea. specialize (Hv a). rewrite Ea in Hv. exact Hv. Qed.
Lemma mat_at ms st a r c g : holds_value ms st -> matrix_of ms a = (r, c, g) -> mat_of R (ma st a) r c g.
Proof. intros (_ & _ & Hm & _) Ea. specialize (Hm a). rewrite Ea in Hm. exact Hm. Qed.
Lemma sc_of ms st a : holds_value ms st -> R (sc st a) (scalar_of ms a).
Proof. intros (Hs & _). apply Hs. Qed.
Lemma pm_addA o : assign_exact ab R R R (match o with Plus => addA E | Minus => subA E end) (pm G o).
Proof. destruct o; [apply (x_addA _ _ _ _ _ X)|apply (x_subA _ _ _ _ _ X)]. Qed.
Lemma pm_add o : binary_exact ab R (match o with Plus => add E | Minus => sub E end) (pm G o).
Proof. destruct o; [apply (x_add _ _ _ _ _ X)|apply (x_sub _ _ _ _ _ X)]. Qed.
Lemma copy_vec x n v : seq_of R x n v -> ret ab (Vec_of_vec Ok x) (fun r => seq_of R r n v).
Proof.
  intros [L H]. unfold Vec_of_vec. rewrite L. eapply ret_mono; [apply (push_all_ok Ok ab (fun i e => R e (v i)) x n n); [lia|lia|]|].
  - intros i s Hi Es. apply ret_ok. destruct (H i Hi) as (e & E1 & He). congruence.
  - intros r Hr. apply seqP_of. exact Hr.
Qed.
Lemma cat_vec x y n k v w : seq_of R x n v -> seq_of R y k w -> seq_of R (x ++ y) (n + k) (fun i => if i <? n then v i else w (i - n)).
Proof.
  intros [Lx Hx] [Ly Hy]. split; [rewrite app_length; lia|]. intros i Hi. destruct (Nat.ltb_spec i n).
  - destruct (Hx i) as (e & E1 & He); auto. exists e. split; auto. rewrite nth_error_app1 by lia. auto.
  - destruct (Hy (i - n)) as (e & E1 & He); [lia|]. exists e. split; auto. rewrite nth_error_app2 by lia. rewrite Lx. auto.
Qed.
Lemma repeat_vec a b n : R a b -> seq_of R (repeat a n) n (fun _ => b).
Proof. intros H. apply seqP_of. apply seqP_repeat. auto. Qed.
Lemma set_vec x n v i a b : seq_of R x n v -> i < n -> R a b -> seq_of R (replace x i a) n (fun j => if j =? i then b else v j).
Proof.
  intros Hx Hi Ha. apply seqP_of. eapply (seqP_set x n (fun i e => R e (v i))); [apply seqP_of; exact Hx|auto| |].
  - cbn. rewrite Nat.eqb_refl. auto.
  - intros j e Hj Nj. cbn. destruct (Nat.eqb_spec j i); [contradiction|auto].
Qed.
Lemma raises_cross x y n k v w : seq_of R x n v -> seq_of R y k w -> (n =? 3) && (k =? 3) = false -> cross E x y = Throw InvalidArgument.
Proof.
  intros [Lx _] [Ly _] H. apply cross_bad. intros [H1 H2]. rewrite Lx in H1. rewrite Ly in H2. rewrite H1, H2 in H. discriminate.
Qed.
Lemma cross_val x y v w : seq_of R x 3 v -> seq_of R y 3 w -> ret ab (cross E x y) (fun r => seq_of R r 3 (cross_product G v w)).
Proof. apply cross_ok; [apply (x_sub _ _ _ _ _ X)|apply (x_mul _ _ _ _ _ X)]. Qed.
Lemma dot_val x y n v w : seq_of R x n v -> seq_of R y n w -> ret ab (dot E x y) (fun r => R r (sum G n (fun i => fmul G (v i) (w i)))).
Proof. apply dot_ok; [apply (x_zero _ _ _ _ _ X)|apply (x_addA _ _ _ _ _ X)|apply (x_mul _ _ _ _ _ X)]. Qed.
Lemma triple_first x y n k v w {B} (f : list T -> res B) : seq_of R x n v -> seq_of R y k w -> (n =? 3) && (k =? 3) = false ->
  raises ab InvalidArgument (c <- cross E x y ;; f c).
Proof. intros Hx Hy H. left. rewrite (raises_cross x y n k v w Hx Hy H). reflexivity. Qed.
Lemma dot_bad_raise x y n k v w : seq_of R x n v -> seq_of R y k w -> n <> k -> dot E x y = Throw InvalidArgument.
Proof. intros [Lx _] [Ly _] N. apply dot_bad. congruence. Qed.

(** *** Matrices *)
Lemma array_mat x n v r c : seq_of R x n v -> r * c <= n -> ret ab (Mat_array E (map Some x) r c) (fun m => mat_of R m r c (fun i j => v (i * c + j))).
Proof.
  intros [L H] Hn. apply Mat_array_ok. intros i j Hi Hj. pose proof (offset_lt r c i j Hi Hj). destruct (H (i * c + j)) as (e & E1 & He); [lia|].
  unfold read. rewrite nth_error_map, E1. apply ret_ok. exact He.
Qed.
Lemma diag_mat x n v k : seq_of R x n v -> k <= n -> ret ab (diagonalMatrix E (map Some x) k) (fun m => mat_of R m k k (fun i j => if i =? j then v i else zero G)).
Proof.
  intros [L H] Hn. apply diagonalMatrix_ok; [apply (x_zero _ _ _ _ _ X)|]. intros i Hi. destruct (H i) as (e & E1 & He); [lia|].
  unfold read. rewrite nth_error_map, E1. apply ret_ok. exact He.
Qed.
Lemma set_mat m r c g i j a b : mat_of R m r c g -> i < r -> j < c -> R a b ->
  sret ab (set_entry m i j a) (fun d => mat_of R d r c (fun i' j' => if (i' =? i) && (j' =? j) then b else g i' j')).
Proof.
  intros Hm Hi Hj Ha. eapply sret_mono; [eapply (set_ok ab m r c (fun i j => holds (fun x => R x (g i j))) (fun i' j' => holds (fun x => R x (if (i' =? i) && (j' =? j) then b else g i' j'))));
    [apply mat_of_P; exact Hm|auto|auto| |]|].
  - exists a. rewrite !Nat.eqb_refl. auto.
  - intros i' j' o Hi' Hj' N Ho. destruct (Nat.eqb_spec i' i); [destruct (Nat.eqb_spec j' j); [subst; contradiction N; auto|]|]; exact Ho.
  - intros d Hd. apply mat_of_P. exact Hd.
Qed.
Lemma row_of_0 m g : mat_of R m 0 0 g -> row_cofactor_expansion E m = Ok (of_int E 0) /\ col_cofactor_expansion E m = Ok (of_int E 0).
Proof.
  intros (Hr & Hc & _). unfold row_cofactor_expansion, col_cofactor_expansion. rewrite Hr. cbn [row_expansion col_expansion]. unfold expansion.
  rewrite Hr, Hc. split; reflexivity.
Qed.

Lemma cof_bad (m : Mat T) r c : dims m r c -> r <> c -> row_cofactor_expansion E m = Throw DomainError /\ col_cofactor_expansion E m = Throw DomainError.
Proof.
  intros (Hr & Hc & _) N. unfold row_cofactor_expansion, col_cofactor_expansion. cbn [row_expansion col_expansion]. unfold expansion.
  rewrite Hr, Hc. destruct (Nat.eqb_spec r c); [contradiction|]. split; reflexivity.
Qed.
Lemma det_bad (m : Mat T) r c : dims m r c -> r <> c -> determinant E m = Throw DomainError /\ inverse E m = Throw DomainError /\ trace E m = Throw DomainError.
Proof.
  intros (Hr & Hc & _) N. unfold determinant, inverse, trace. rewrite Hr, Hc. destruct (Nat.eqb_spec r c); [contradiction|]. splits; reflexivity.
Qed.
Lemma same_bool (r r' c c' : nat) : (r =? r') && (c =? c') = true -> r' = r /\ c' = c.
Proof. intros H. apply andb_prop in H as [H1 H2]. apply Nat.eqb_eq in H1, H2. auto. Qed.
Lemma same_bool_no (r r' c c' : nat) : (r =? r') && (c =? c') = false -> (r, c) <> (r', c').
Proof. intros H [= -> ->]. rewrite !Nat.eqb_refl in H. discriminate. Qed.

Lemma step ms st c : holds_value ms st -> Forall may (uses c) ->
  (exists h, ab h /\ snd (perform E st c) = stop h) \/
  exists e, means G ms c e /\ (e = Undefined \/ follows ms e (perform E st c)).
Proof.
  intros H F. pose proof H as (Hs & Hv & Hm & Hb).
  destruct c; cbn [uses] in F; try (apply Forall_inv in F); cbn [means perform]; cbv zeta; try (right; eexists; split; [reflexivity|]).
  - (* Lit *) right. apply to_sc_ok; auto. apply ret_ok. apply (x_lit _ _ _ _ _ X); auto.
  - (* SNeg *) right. apply to_sc_ok; auto. apply (x_neg _ _ _ _ _ X); auto.
  - (* SAddSub *) right. destruct o; apply to_sc_ok; auto; [apply (x_add _ _ _ _ _ X)|apply (x_sub _ _ _ _ _ X)]; auto.
  - (* SMul *) right. apply to_sc_ok; auto. apply (x_mul _ _ _ _ _ X); auto.
  - (* SDiv *) right. pose proof (x_div _ _ _ _ _ X F _ _ _ _ (Hs a) (Hs b)) as D. destruct (feq G (scalar_of ms b) (zero G)).
    + apply raise_eval; auto.
    + apply to_sc_ok; auto.
  - (* VNew *) right. apply to_ve_ok; auto. apply ret_ok. apply repeat_vec. apply (x_zero _ _ _ _ _ X).
  - (* VConst *) right. apply to_ve_ok; auto. apply ret_final. unfold setEntries_val. cbn [eval]. apply sret_done.
    unfold Vec_size. rewrite repeat_length. apply repeat_vec; auto.
  - (* VFill *) right. apply in_ve_ok; auto. unfold setEntries_val. cbn [eval]. apply sret_done. destruct (Hv d) as [-> _]. apply repeat_vec; auto.
  - (* VCopy *) right. apply to_ve_ok; auto. apply copy_vec; auto.
  - (* VGet *) destruct (Nat.ltb_spec i (fst (vector_of ms a))); auto. right. apply to_sc_ok; auto.
    apply (seqP_get ab (ve st a) (fst (vector_of ms a)) (fun i e => R e (snd (vector_of ms a) i)) i); auto. apply seqP_of. apply Hv.
  - (* VSet *) destruct (Nat.ltb_spec i (fst (vector_of ms d))); auto. right. apply to_ve_ok; auto.
    pose proof (Hv d) as [L _]. destruct (Nat.ltb_spec i (length (ve st d))); [|lia]. apply ret_ok. apply set_vec; auto.
  - (* VAddSub *) right. destruct (Nat.eqb_spec (fst (vector_of ms a)) (fst (vector_of ms b))) as [L|L].
    + pose proof (Hv b) as Hv2. rewrite <- L in Hv2.
      destruct o; apply to_ve_ok; auto; (eapply vec_binary_ok; [|eauto|eauto]); [apply (x_addA _ _ _ _ _ X)|apply (x_subA _ _ _ _ _ X)].
    + pose proof (Hv a) as [La _]. pose proof (Hv b) as [Lb _].
      destruct o; apply raise_eval; auto; left; apply vec_binary_bad; congruence.
  - (* VAssign *) right. destruct (Nat.eqb_spec (fst (vector_of ms d)) (fst (vector_of ms b))) as [L|L].
    + assert (O : match operand (ve st) d b with None => forall i, i < fst (vector_of ms d) -> snd (vector_of ms b) i = snd (vector_of ms d) i
              | Some y => seq_of R y (fst (vector_of ms d)) (snd (vector_of ms b)) end).
      { rewrite L. apply (operand_vec ms st d b); auto. destruct (vector_of ms b); auto. }
      destruct o; apply in_ve_ok; auto; (eapply vec_assign_ok; [|eauto|exact O]); [apply (x_addA _ _ _ _ _ X)|apply (x_subA _ _ _ _ _ X)].
    + pose proof (Hv d) as [La _]. pose proof (Hv b) as [Lb _].
      assert (N : length (ve st d) <> length (rd (ve st d) (operand (ve st) d b))).
      { unfold operand. destruct (Nat.eqb_spec d b) as [->|]; cbn [rd]; congruence. }
      destruct o; apply raise_in_ve; auto; left; apply vec_assign_bad; auto.
  - (* VMul *) right. apply to_ve_ok; auto. apply ret_final. eapply (scale_val_ok ab R R R); [apply (x_mulA _ _ _ _ _ X); auto|auto|auto].
  - (* VDiv *) right. destruct (0 <? fst (vector_of ms a)) eqn:Z0; [destruct (feq G (scalar_of ms s) (zero G)) eqn:Z|]; cbn [andb].
    + apply Nat.ltb_lt in Z0. apply raise_eval; auto. eapply final_raise. eapply vdiv_zero; eauto.
    + apply to_ve_ok; auto. apply ret_final. eapply (scale_val_ok ab R R divisor); [apply divA_exact; auto|auto|]. split; auto. congruence.
    + apply Nat.ltb_ge in Z0. apply to_ve_ok; auto. apply ret_final. unfold V_div_assign, scale_assign. pose proof (Hv a) as [L _]. rewrite L.
      replace (fst (vector_of ms a)) with 0 in * by lia. cbn [for_]. apply sret_done. destruct (ve st a); [|discriminate]. split; auto. intros; lia.
  - (* VMulA *) right. apply in_ve_ok; auto. eapply (scale_val_ok ab R R R); [apply (x_mulA _ _ _ _ _ X); auto|auto|auto].
  - (* VDivA *) right. destruct (0 <? fst (vector_of ms d)) eqn:Z0; [destruct (feq G (scalar_of ms s) (zero G)) eqn:Z|]; cbn [andb].
    + apply Nat.ltb_lt in Z0. apply raise_in_ve; auto. eapply vdiv_zero; eauto.
    + apply in_ve_ok; auto. eapply (scale_val_ok ab R R divisor); [apply divA_exact; auto|auto|]. split; auto. congruence.
    + apply Nat.ltb_ge in Z0. apply in_ve_ok; auto. unfold V_div_assign, scale_assign. pose proof (Hv d) as [L _]. rewrite L.
      replace (fst (vector_of ms d)) with 0 in * by lia. cbn [for_]. apply sret_done. destruct (ve st d); [|discriminate]. split; auto. intros; lia.
  - (* VMulOwn *) destruct (Nat.ltb_spec k (fst (vector_of ms d))); auto. right. apply in_ve_ok; auto.
    eapply (scale_elem_ok ab R R R); [apply (x_mulA _ _ _ _ _ X); auto|auto|auto|auto|auto].
  - (* VDivOwn *) destruct (Nat.ltb_spec k (fst (vector_of ms d))); auto. right.
    destruct (feq G (snd (vector_of ms d) k) (zero G)) eqn:Z.
    + apply raise_in_ve; auto. eapply vdiv_own_zero; eauto.
    + apply in_ve_ok; auto. eapply (scale_elem_ok ab R divisor R); [apply divA_exact; auto|auto|auto| |].
      * intros e He. split; auto. congruence.
      * intros e He. split; auto. rewrite (x_ratio _ _ _ _ _ X F _ Z). discriminate.
  - (* VEq *) right. apply to_bo_ok; auto. destruct (Nat.eqb_spec (fst (vector_of ms a)) (fst (vector_of ms b))) as [L|L]; cbn [andb].
    + pose proof (Hv b) as Hv2. rewrite <- L in Hv2. eapply ret_mono; [eapply V_eq_ok; [apply x_eq_iff|eauto|eauto]|].
      intros r Hr. eapply iff_eq; [exact Hr|]. apply all_equal_iff.
    + pose proof (Hv a) as [La _]. pose proof (Hv b) as [Lb _]. rewrite V_eq_bad by congruence. apply ret_ok. reflexivity.
  - (* VCat *) right. apply to_ve_ok; auto. rewrite concatenate_ok. apply ret_ok. apply cat_vec; auto.
  - (* VDot *) right. destruct (Nat.eqb_spec (fst (vector_of ms a)) (fst (vector_of ms b))) as [L|L].
    + pose proof (Hv b) as Hv2. rewrite <- L in Hv2. apply to_sc_ok; auto. apply dot_val; auto.
    + apply raise_eval; auto. left. eapply dot_bad_raise; eauto.
  - (* VCross *) right. destruct ((fst (vector_of ms a) =? 3) && (fst (vector_of ms b) =? 3)) eqn:L.
    + apply andb_prop in L as [L1 L2]. apply Nat.eqb_eq in L1, L2. pose proof (Hv a) as Ha. pose proof (Hv b) as Hb2. rewrite L1 in Ha. rewrite L2 in Hb2.
      apply to_ve_ok; auto. apply cross_val; auto.
    + apply raise_eval; auto. left. eapply raises_cross; eauto.
  - (* VSTP *) right. destruct ((fst (vector_of ms b) =? 3) && (fst (vector_of ms c) =? 3)) eqn:L.
    + apply andb_prop in L as [L1 L2]. rewrite L1, L2. apply Nat.eqb_eq in L1, L2. pose proof (Hv b) as Hb2. pose proof (Hv c) as Hc2. rewrite L1 in Hb2. rewrite L2 in Hc2.
      rewrite !Bool.andb_true_r. destruct (Nat.eqb_spec (fst (vector_of ms a)) 3) as [L3|L3].
      * pose proof (Hv a) as Ha. rewrite L3 in Ha. apply to_sc_ok; auto. eapply ret_bind; [apply cross_val; eauto|]. intros r Hr. apply dot_val; auto.
      * unfold scalar_triple_product. destruct (cross_val _ _ _ _ Hb2 Hc2) as [(r & -> & Hr)|(h & Hh & ->)]; cbn [bind].
        -- apply raise_eval; auto. left. eapply dot_bad_raise; eauto.
        -- apply raise_eval; auto. right. exists h. split; auto. destruct h; reflexivity.
    + replace ((fst (vector_of ms a) =? 3) && (fst (vector_of ms b) =? 3) && (fst (vector_of ms c) =? 3)) with false by (rewrite <- Bool.andb_assoc, L, Bool.andb_false_r; auto).
      apply raise_eval; auto. eapply triple_first; eauto.
  - (* VVTP *) right. destruct ((fst (vector_of ms b) =? 3) && (fst (vector_of ms c) =? 3)) eqn:L.
    + apply andb_prop in L as [L1 L2]. rewrite L1, L2. apply Nat.eqb_eq in L1, L2. pose proof (Hv b) as Hb2. pose proof (Hv c) as Hc2. rewrite L1 in Hb2. rewrite L2 in Hc2.
      rewrite !Bool.andb_true_r. destruct (Nat.eqb_spec (fst (vector_of ms a)) 3) as [L3|L3].
      * pose proof (Hv a) as Ha. rewrite L3 in Ha. apply to_ve_ok; auto. eapply ret_bind; [apply cross_val; eauto|]. intros r Hr. apply cross_val; auto.
      * unfold vector_triple_product. destruct (cross_val _ _ _ _ Hb2 Hc2) as [(r & -> & Hr)|(h & Hh & ->)]; cbn [bind].
        -- apply raise_eval; auto. left. eapply raises_cross; eauto. apply Bool.andb_false_intro1. apply Nat.eqb_neq. auto.
        -- apply raise_eval; auto. right. exists h. split; auto. destruct h; reflexivity.
    + replace ((fst (vector_of ms a) =? 3) && (fst (vector_of ms b) =? 3) && (fst (vector_of ms c) =? 3)) with false by (rewrite <- Bool.andb_assoc, L, Bool.andb_false_r; auto).
      apply raise_eval; auto. eapply triple_first; eauto.
  - (* MNew *) right. apply to_ma_ok; auto. apply Mat_val_ok; auto.
  - (* MArray *) destruct (Nat.leb_spec (r * c) (fst (vector_of ms a))); auto. right. apply to_ma_ok; auto. eapply array_mat; eauto.
  - (* MIdent *) right. apply to_ma_ok; auto. apply identityMatrix_ok; [apply (x_zero _ _ _ _ _ X)|apply (x_one _ _ _ _ _ X)].
  - (* MDiag *) destruct (Nat.leb_spec n (fst (vector_of ms a))); auto. right. apply to_ma_ok; auto. eapply diag_mat; eauto.
  - (* MCopy *) right. apply in_ma_ok; auto. apply (PropsMat.C60_construct T A E ab R).
    unfold operand. destruct (Nat.eqb_spec d a) as [->|]; cbn [rd]; auto.
  - (* MGet *) destruct (Nat.ltb_spec i (fst (fst (matrix_of ms a)))), (Nat.ltb_spec j (snd (fst (matrix_of ms a)))); cbn [andb]; auto. right.
    apply to_sc_ok; auto. eapply entry_of; eauto.
  - (* MSet *) destruct (Nat.ltb_spec i (fst (fst (matrix_of ms d)))), (Nat.ltb_spec j (snd (fst (matrix_of ms d)))); cbn [andb]; auto. right.
    apply in_ma_ok; auto. apply set_mat; auto.
  - (* MNeg *) right. apply to_ma_ok; auto. apply M_neg_ok; auto. apply (x_neg _ _ _ _ _ X); auto.
  - (* MAddSub *) right. destruct (_ && _) eqn:L.
    + apply same_bool in L as [L1 L2]. pose proof (Hm b) as Hm2. rewrite L1, L2 in Hm2.
      destruct o; apply to_ma_ok; auto; apply mat_binary_ok; auto; [apply (x_add _ _ _ _ _ X)|apply (x_sub _ _ _ _ _ X)].
    + apply same_bool_no in L. pose proof (mat_of_dims _ _ _ _ _ (Hm a)). pose proof (mat_of_dims _ _ _ _ _ (Hm b)).
      destruct o; apply raise_eval; auto; left; eapply mat_binary_bad; eauto.
  - (* MAssign *) right. destruct (_ && _) eqn:L.
    + apply same_bool in L as [L1 L2]. pose proof (Hm b) as Hm2. rewrite L1, L2 in Hm2.
      assert (O : match operand (ma st) d b with
              | None => forall i j, i < fst (fst (matrix_of ms d)) -> j < snd (fst (matrix_of ms d)) -> snd (matrix_of ms b) i j = snd (matrix_of ms d) i j
              | Some y => mat_of R y (fst (fst (matrix_of ms d))) (snd (fst (matrix_of ms d))) (snd (matrix_of ms b)) end).
      { unfold operand. destruct (Nat.eqb_spec d b) as [->|]; auto. }
      destruct o; apply in_ma_ok; auto; (eapply mat_assign_ok; [|eauto|exact O]); [apply (x_addA _ _ _ _ _ X)|apply (x_subA _ _ _ _ _ X)].
    + apply same_bool_no in L. pose proof (mat_of_dims _ _ _ _ _ (Hm d)). pose proof (mat_of_dims _ _ _ _ _ (Hm b)).
      assert (D : dims (rd (ma st d) (operand (ma st) d b)) (fst (fst (matrix_of ms b))) (snd (fst (matrix_of ms b)))).
      { unfold operand. destruct (Nat.eqb_spec d b) as [->|]; cbn [rd]; auto. }
      destruct o; apply raise_in_ma; auto; left; eapply mat_assign_bad; eauto.
  - (* MMul *) right. apply to_ma_ok; auto. apply M_scale_ok; auto. apply (x_mul _ _ _ _ _ X).
  - (* MDiv *) right. destruct (0 <? fst (fst (matrix_of ms a))) eqn:Z0; [destruct (0 <? snd (fst (matrix_of ms a))) eqn:Z1; [destruct (feq G (scalar_of ms s) (zero G)) eqn:Z|]|]; cbn [andb].
    + apply Nat.ltb_lt in Z0, Z1. apply raise_eval; auto. eapply M_div_zero; eauto.
    + apply to_ma_ok; auto. apply M_div_ok; auto. intros x y Hx. pose proof (x_div _ _ _ _ _ X F _ _ _ _ Hx (Hs s)) as D. rewrite Z in D. exact D.
    + apply Nat.ltb_ge in Z1. apply to_ma_ok; auto. unfold M_div. destruct (mat_of_dims _ _ _ _ _ (Hm a)) as (-> & -> & _). apply fill_new. intros; lia.
    + apply Nat.ltb_ge in Z0. apply to_ma_ok; auto. unfold M_div. destruct (mat_of_dims _ _ _ _ _ (Hm a)) as (-> & -> & _). apply fill_new. intros; lia.
  - (* MMulA *) right. apply in_ma_ok; auto. eapply (mat_scale_val_ok ab R R R); [apply (x_mulA _ _ _ _ _ X); auto|auto|auto].
  - (* MDivA *) right. destruct (0 <? fst (fst (matrix_of ms d))) eqn:Z0; [destruct (0 <? snd (fst (matrix_of ms d))) eqn:Z1; [destruct (feq G (scalar_of ms s) (zero G)) eqn:Z|]|]; cbn [andb].
    + apply Nat.ltb_lt in Z0, Z1. apply raise_in_ma; auto. eapply mdiv_zero; eauto.
    + apply in_ma_ok; auto. eapply (mat_scale_val_ok ab R divisor R); [apply divA_exact; auto|auto|]. split; auto. congruence.
    + apply Nat.ltb_ge in Z1. apply in_ma_ok; auto. eapply (mat_scale_val_pt ab R R); [|auto]. intros; lia.
    + apply Nat.ltb_ge in Z0. apply in_ma_ok; auto. eapply (mat_scale_val_pt ab R R); [|auto]. intros; lia.
  - (* MMulOwn *) destruct (Nat.ltb_spec p (fst (fst (matrix_of ms d)))), (Nat.ltb_spec q (snd (fst (matrix_of ms d)))); cbn [andb]; auto. right.
    apply in_ma_ok; auto. eapply PropsMat.C48_scale_by_entry_partial with (S := R); auto. apply (x_mulA _ _ _ _ _ X); auto.
  - (* MDivOwn *) destruct (Nat.ltb_spec p (fst (fst (matrix_of ms d)))), (Nat.ltb_spec q (snd (fst (matrix_of ms d)))); cbn [andb]; auto. right.
    destruct (feq G (snd (matrix_of ms d) p q) (zero G)) eqn:Z.
    + apply raise_in_ma; auto. eapply mdiv_own_zero; eauto.
    + apply in_ma_ok; auto. eapply PropsMat.C48_divide_by_entry_partial with (S := divisor); auto; [apply divA_exact; auto| |].
      * intros e He. split; auto. congruence.
      * intros e He. split; auto. rewrite (x_ratio _ _ _ _ _ X F _ Z). discriminate.
  - (* MProd *) right. destruct (Nat.eqb_spec (snd (fst (matrix_of ms a))) (fst (fst (matrix_of ms b)))) as [L|L].
    + pose proof (Hm b) as Hm2. rewrite <- L in Hm2. apply to_ma_ok; auto.
      apply M_product_ok; auto; [apply (x_zero _ _ _ _ _ X)|apply (x_addA _ _ _ _ _ X)|apply (x_mul _ _ _ _ _ X)].
    + apply raise_eval; auto. left. eapply M_product_bad; [eapply mat_of_dims; apply (Hm a)|eapply mat_of_dims; apply (Hm b)|auto].
  - (* MProdA *) right.
    destruct (PropsMat.C48_product T A E ab R (zero G) (fadd G) (fmul G) (x_zero _ _ _ _ _ X) (x_addA _ _ _ _ _ X) (x_mul _ _ _ _ _ X)
      _ _ _ _ _ _ _ _ (Hm d) (Hm b)) as (P1 & P2 & P3 & P4).
    unfold operand. destruct (Nat.eqb_spec (snd (fst (matrix_of ms d))) (fst (fst (matrix_of ms b)))) as [L|L].
    + apply in_ma_ok; auto. destruct (Nat.eqb_spec d b) as [->|]; [|apply P2; auto].
      eapply sret_mono; [apply P3; auto|]. intros r Hr. rewrite L. exact Hr.
    + apply raise_in_ma; auto. left. destruct (Nat.eqb_spec d b) as [->|]; [apply P4; auto|apply P1; auto].
  - (* MEq *) right. apply to_bo_ok; auto.
    destruct ((fst (fst (matrix_of ms a)) =? fst (fst (matrix_of ms b))) && (snd (fst (matrix_of ms a)) =? snd (fst (matrix_of ms b)))) eqn:L.
    + apply same_bool in L as [L1 L2]. pose proof (Hm b) as Hm2. rewrite L1, L2 in Hm2. cbn [andb].
      eapply ret_mono; [eapply (M_eq_ok E ab R (fun a b => feq G a b = true)); [intros; apply x_eq_iff; auto|eauto|eauto]|].
      intros e He. eapply iff_eq; [exact He|]. rewrite forallb_forall. split.
      * intros Q i j Hi Hj. specialize (Q i ltac:(apply in_seq; lia)). rewrite all_equal_iff in Q. auto.
      * intros Q i Hi. apply in_seq in Hi. apply all_equal_iff. intros j Hj. apply Q; lia.
    + apply same_bool_no in L. cbn [andb].
      erewrite M_eq_bad; [apply ret_ok; reflexivity|eapply mat_of_dims; apply (Hm a)|eapply mat_of_dims; apply (Hm b)|exact L].
  - (* MTrans *) right. apply to_ma_ok; auto. apply transpose_ok; auto.
  - (* MTrace *) right. destruct (Nat.eqb_spec (fst (fst (matrix_of ms a))) (snd (fst (matrix_of ms a)))) as [L|L].
    + pose proof (Hm a) as Ha. rewrite <- L in Ha. apply to_sc_ok; auto. apply trace_ok; auto; [apply (x_zero _ _ _ _ _ X)|apply (x_addA _ _ _ _ _ X)].
    + apply raise_eval; auto. left. eapply det_bad; eauto. eapply mat_of_dims; apply (Hm a).
  - (* MMinor *) destruct (Nat.ltb_spec 0 (fst (fst (matrix_of ms a)))), (Nat.ltb_spec 0 (snd (fst (matrix_of ms a)))); cbn [andb]; auto. right.
    apply to_ma_ok; auto. eapply PropsMat.C60_minor; auto.
  - (* MCof *) destruct (Nat.ltb_spec 0 (fst (fst (matrix_of ms a)))), (Nat.ltb_spec 0 (snd (fst (matrix_of ms a)))); cbn [andb]; auto. right.
    apply to_ma_ok; auto. eapply PropsMat.C60_minor; auto. apply (x_neg _ _ _ _ _ X); auto.
  - (* MAug *) right. destruct (Nat.eqb_spec (fst (fst (matrix_of ms a))) (fst (fst (matrix_of ms b)))) as [L|L].
    + pose proof (Hm b) as Hm2. rewrite <- L in Hm2. apply to_ma_ok; auto. apply augmentedMatrix_ok; auto.
    + apply raise_eval; auto. left. eapply augmentedMatrix_bad; [eapply mat_of_dims; apply (Hm a)|eapply mat_of_dims; apply (Hm b)|auto].
  - (* MRow *) right. destruct (Nat.eqb_spec (fst (fst (matrix_of ms a))) (snd (fst (matrix_of ms a)))) as [L|L].
    + pose proof (Hm a) as Ha. rewrite <- L in Ha. apply to_sc_ok; auto. destruct (Nat.eqb_spec (fst (fst (matrix_of ms a))) 0) as [Z|Z].
      * rewrite Z in Ha. destruct (row_of_0 _ _ Ha) as [-> _]. apply ret_ok. apply (x_zero _ _ _ _ _ X).
      * apply (x_row _ _ _ _ _ X); auto. lia.
    + apply raise_eval; auto. left. eapply cof_bad; eauto. eapply mat_of_dims; apply (Hm a).
  - (* MCol *) right. destruct (Nat.eqb_spec (fst (fst (matrix_of ms a))) (snd (fst (matrix_of ms a)))) as [L|L].
    + pose proof (Hm a) as Ha. rewrite <- L in Ha. apply to_sc_ok; auto. destruct (Nat.eqb_spec (fst (fst (matrix_of ms a))) 0) as [Z|Z].
      * rewrite Z in Ha. destruct (row_of_0 _ _ Ha) as [_ ->]. apply ret_ok. apply (x_zero _ _ _ _ _ X).
      * apply (x_col _ _ _ _ _ X); auto. lia.
    + apply raise_eval; auto. left. eapply cof_bad; eauto. eapply mat_of_dims; apply (Hm a).
  - (* MDet *) right. destruct (Nat.eqb_spec (fst (fst (matrix_of ms a))) (snd (fst (matrix_of ms a)))) as [L|L].
    + pose proof (Hm a) as Ha. rewrite <- L in Ha. apply to_sc_ok; auto. apply (x_det _ _ _ _ _ X); auto.
    + apply raise_eval; auto. left. eapply det_bad; eauto. eapply mat_of_dims; apply (Hm a).
  - (* MRref *) destruct (x_rref _ _ _ _ _ X F _ _ _ _ (Hm a)) as [(r & E1 & h & Hr & Hh)|(h & Hh & E1)].
    + right. eexists. split; [exists h; split; [exact Hh|reflexivity]|]. right. apply to_ma_ok; auto. rewrite E1. apply ret_ok. auto.
    + left. exists h. split; auto. unfold to_ma. rewrite E1, eval_stop. reflexivity.
  - (* MRrefA *) destruct (x_rrefA _ _ _ _ _ X F _ _ _ _ (Hm d)) as [(E1 & h & Hr & Hh)|(h & Hh & E1)].
    + right. eexists. split; [exists h; split; [exact Hh|reflexivity]|]. right. apply in_ma_ok; auto. left. auto.
    + left. exists h. auto.
  - (* MInv *) destruct (Nat.eqb_spec (fst (fst (matrix_of ms a))) (snd (fst (matrix_of ms a)))) as [L|L].
    + pose proof (Hm a) as Ha. rewrite <- L in Ha. pose proof (x_inverse _ _ _ _ _ X F _ _ _ Ha) as D.
      destruct (feq G (fdet G (fst (fst (matrix_of ms a))) (snd (matrix_of ms a))) (zero G)).
      * right. eexists. split; [reflexivity|]. right. apply raise_eval; auto.
      * destruct D as [(r & E1 & h & Hr & Hh)|(h & Hh & E1)].
        -- right. eexists. split; [exists h; split; [exact Hh|reflexivity]|]. right. apply to_ma_ok; auto. rewrite E1. apply ret_ok. auto.
        -- left. exists h. split; auto. unfold to_ma. rewrite E1, eval_stop. reflexivity.
    + right. eexists. split; [reflexivity|]. right. apply raise_eval; auto. left. eapply det_bad; eauto. eapply mat_of_dims; apply (Hm a).
Qed.

(** *** Programs *)
Theorem programs p : forall ms st, holds_value ms st -> Forall (fun c => Forall may (uses c)) p ->
  strays G ms p \/
  match execute E st p with
  | Ok (st', l) => exists ms', computes G ms p ms' l /\ holds_value ms' st'
  | Abort => ab HAbort
  | UB => ab HUB
  | Throw _ | OutOfFuel => False
  end.
Proof.
  induction p as [|c p IH]; intros ms st H F.
  - right. exists ms. split; [constructor|exact H].
  - apply Forall_cons_iff in F as [Fc Fp].
    assert (ST : forall h, ab h -> snd (perform E st c) = stop h -> match execute E st (c :: p) with
      | Ok (st', l) => exists ms', computes G ms (c :: p) ms' l /\ holds_value ms' st' | Abort => ab HAbort | UB => ab HUB | _ => False end).
    { intros h Hh E1. cbn [execute]. destruct (perform E st c) as [st1 r]. cbn in E1. subst r. destruct h; exact Hh. }
    destruct (step ms st c H Fc) as [(h & Hh & E1)|(e & M & [->|D])].
    + right. apply (ST h); auto.
    + left. constructor. exact M.
    + destruct D as [(E1 & Th & V)|[(x & E1 & Th & V)|(h & Hh & E1)]]; [| |right; apply (ST h); auto].
      * destruct (perform E st c) as [st1 r] eqn:E2. cbn in E1, V. subst r.
        assert (De : e = Undefined \/ e <> Undefined) by (destruct e; auto; right; discriminate).
        destruct De as [->|N]; [left; constructor; exact M|].
        destruct (IH _ _ V Fp) as [St|Run]; [left; eapply strays_later; eauto|right].
        cbn [execute]. rewrite E2. destruct (execute E st1 p) as [[s l]| | | |]; cbn [bind]; auto.
        destruct Run as (ms' & C & V'). exists ms'. split; auto. rewrite <- Th. eapply computes_cons; eauto.
      * destruct (perform E st c) as [st1 r] eqn:E2. cbn in E1, V. subst r.
        assert (N : e <> Undefined) by (intros ->; discriminate).
        destruct (IH _ _ V Fp) as [St|Run]; [left; eapply strays_later; eauto|right].
        cbn [execute]. rewrite E2. destruct (execute E st1 p) as [[s l]| | | |]; cbn [bind]; auto.
        destruct Run as (ms' & C & V'). exists ms'. split; auto. rewrite <- Th. eapply computes_cons; eauto.
Qed.
End Proofs.
