(** The reduced row echelon form of a matrix is unique. *)
From mathcomp Require Import all_ssreflect all_algebra zify.
From Verif Require Import MatAlg MatRrefSpec.
Set Implicit Arguments. Unset Strict Implicit. Unset Printing Implicit Defensive.
Import GRing.Theory.
Local Open Scope ring_scope.

Section Unique.
Context {F : fieldType}.
Implicit Types (g h : nat -> nat -> F).

Lemma req_sym n c g h : row_equivalent n c g h -> row_equivalent n c h g.
Proof. move=> [P Pu HP]. exists (invmx P); first by rewrite unitmx_inv. by rewrite HP mulKmx. Qed.
Lemma req_rows n c g h : row_equivalent n c g h -> (mx n c h :=: mx n c g)%MS.
Proof. move=> [P Pu ->]. by apply: eqmxMfull; rewrite row_full_unit. Qed.

(** entry by entry *)
Definition times n c (P : nat -> nat -> F) g h : Prop :=
  forall i j, (i < n)%N -> (j < c)%N -> h i j = \sum_(0 <= k < n) P i k * g k j.
Lemma req_times n c g h : row_equivalent n c g h -> exists P, times n c P g h.
Proof.
  move=> [P _ HP]. case: n P HP => [|n] P HP; first by exists (fun _ _ => 0).
  exists (fun i k => P (inord i) (inord k)) => i j Hi Hj. move/matrixP: HP => /(_ (inord i) (Ordinal Hj)). rewrite !mxE /= inordK // => ->.
  rewrite big_mkord. apply: eq_bigr => k _. by rewrite !mxE inord_val.
Qed.
Lemma unit_sum n (f : nat -> F) k : (k < n)%N -> \sum_(0 <= l < n) f l * (l == k)%:R = f k.
Proof.
  move=> Hk. rewrite big_mkord (bigD1 (Ordinal Hk)) //= eqxx mulr1 big1 ?addr0 // => l.
  rewrite -val_eqE /= => /negbTE ->. by rewrite mulr0.
Qed.
Definition frame n c g rk (piv : nat -> nat) : Prop := (rk <= n)%N /\
  (forall k, (k < rk)%N -> (piv k < c)%N /\ g k (piv k) = 1 /\
     (forall i, (i < n)%N -> i <> k -> g i (piv k) = 0) /\ (forall j, (j < piv k)%N -> g k j = 0)) /\
  (forall k l, (k < l)%N -> (l < rk)%N -> (piv k < piv l)%N) /\
  (forall i j, (rk <= i < n)%N -> (j < c)%N -> g i j = 0).
Lemma frame_col n c g rk piv k i : frame n c g rk piv -> (k < rk)%N -> (i < n)%N -> g i (piv k) = (i == k)%:R.
Proof. move=> [_ [H _]] Hk Hi. have [_ [H1 [H2 _]]] := H k Hk. case: eqP => [->|N] //. exact: H2. Qed.
(** the multiplier fixes the first t unit vectors *)
Lemma fixes n c P g h rk piv rk' piv' t : times n c P g h -> frame n c g rk piv -> frame n c h rk' piv' ->
  (t <= rk)%N -> (t <= rk')%N -> (forall k, (k < t)%N -> piv k = piv' k) ->
  forall i k, (i < n)%N -> (k < t)%N -> P i k = (i == k)%:R.
Proof.
  move=> HP Fg Fh Ht Ht' Hp i k Hi Hk. have Hk1 : (k < rk)%N by lia. have Hk2 : (k < rk')%N by lia.
  have [Hrk [H _]] := Fg. have [Hc _] := H k Hk1.
  rewrite -(frame_col Fh Hk2 Hi) -Hp // HP // -[LHS](@unit_sum n (P i)); last by lia.
  apply: eq_big_nat => l Hl. by rewrite (frame_col Fg).
Qed.
Lemma same_col n c P g h t j : times n c P g h -> (forall i k, (i < n)%N -> (k < t)%N -> P i k = (i == k)%:R) ->
  (j < c)%N -> (forall i, (t <= i < n)%N -> g i j = 0) -> forall i, (i < n)%N -> h i j = g i j.
Proof.
  move=> HP Hf Hj Hz i Hi. rewrite HP // -[RHS](@unit_sum n (fun k => g k j)) //. apply: eq_big_nat => k Hk.
  case: (ltnP k t) => L; last by rewrite Hz ?mulr0 ?mul0r //; lia. rewrite Hf // eq_sym mulrC //.
Qed.
(** below row t, a column that is no pivot column is zero *)
Lemma below n c g rk piv t j : frame n c g rk piv -> (j < c)%N -> (forall k, (t <= k < rk)%N -> (j < piv k)%N) ->
  forall i, (t <= i < n)%N -> g i j = 0.
Proof.
  move=> [_ [H [_ Hz]]] Hj Hp i Hi. case: (ltnP i rk) => L; last by apply: Hz; lia.
  have [_ [_ [_ H4]]] := H i L. apply: H4. apply: Hp. lia.
Qed.
Lemma later n c g rk piv t j : frame n c g rk piv -> (forall k, (t <= k < rk)%N -> (j <= piv k)%N) ->
  ((t < rk)%N /\ piv t = j /\ forall k, (t.+1 <= k < rk)%N -> (j < piv k)%N) \/ (forall k, (t <= k < rk)%N -> (j < piv k)%N).
Proof.
  move=> [_ [_ [Hm _]]] Hp. case: (ltnP t rk) => L; last by right => k; lia.
  case: (eqVneq (piv t) j) => [Ej|Nj].
  - left. split=> //. split=> // k Hk. rewrite -Ej. apply: Hm; lia.
  - right => k Hk. have := Hp t. case: (eqVneq k t) => [->|Nk]; first by move/eqP: Nj; lia.
    have := Hm t k. move/eqP: Nj. move/eqP: Nk. lia.
Qed.
Lemma unique_columns n c g h rk piv rk' piv' P Q : times n c P g h -> times n c Q h g ->
  frame n c g rk piv -> frame n c h rk' piv' -> forall j, (j <= c)%N -> exists t, (t <= rk)%N /\ (t <= rk')%N /\
  (forall k, (k < t)%N -> piv k = piv' k) /\ (forall k, (t <= k < rk)%N -> (j <= piv k)%N) /\ (forall k, (t <= k < rk')%N -> (j <= piv' k)%N) /\
  forall i j', (i < n)%N -> (j' < j)%N -> g i j' = h i j'.
Proof.
  move=> HP HQ Fg Fh. elim=> [|j IH] Hj.
  { exists 0%N. by repeat split. }
  have [t [T1 [T2 [Tp [Tg [Th Ta]]]]]] := IH (ltnW Hj).
  have FP := fixes HP Fg Fh T1 T2 Tp. have FQ := fixes HQ Fh Fg T2 T1 (fun k Hk => esym (Tp k Hk)).
  have Step : (forall i, (i < n)%N -> g i j = h i j) -> forall i j', (i < n)%N -> (j' < j.+1)%N -> g i j' = h i j'.
  { move=> Hc i j' Hi. rewrite ltnS leq_eqVlt => /orP [/eqP ->|]; [exact: Hc|exact: Ta]. }
  have Rn : (rk <= n)%N /\ (rk' <= n)%N by split; [case: Fg|case: Fh].
  case: (later Fg Tg) => [[Lg [Eg Ng]]|Ng]; case: (later Fh Th) => [[Lh [Eh Nh]]|Nh].
  - exists t.+1. split=> //. split=> //. split; [|split; [|split]] => //.
    + move=> k. rewrite ltnS leq_eqVlt => /orP [/eqP ->|]; [by rewrite Eg Eh|exact: Tp].
    + apply: Step => i Hi. by rewrite -{1}Eg -Eh (frame_col Fg Lg Hi) (frame_col Fh Lh Hi).
  - have S := same_col HQ FQ Hj (below Fh Hj Nh). have Ht : (t < n)%N by lia.
    have := S t Ht. rewrite (below Fh Hj Nh); last by lia. rewrite -{1}Eg (frame_col Fg Lg Ht) eqxx => /eqP. by rewrite oner_eq0.
  - have S := same_col HP FP Hj (below Fg Hj Ng). have Ht : (t < n)%N by lia.
    have := S t Ht. rewrite (below Fg Hj Ng); last by lia. rewrite -{1}Eh (frame_col Fh Lh Ht) eqxx => /eqP. by rewrite oner_eq0.
  - exists t. split=> //. split=> //. split; [|split; [|split]] => //.
    apply: Step => i Hi. by rewrite (same_col HP FP Hj (below Fg Hj Ng)).
Qed.
Theorem rref_unique n c g h : is_rref n c g -> is_rref n c h -> row_equivalent n c g h ->
  forall i j, (i < n)%N -> (j < c)%N -> g i j = h i j.
Proof.
  move=> [rk [piv Fg]] [rk' [piv' Fh]] E. have [P HP] := req_times E. have [Q HQ] := req_times (req_sym E).
  have [t [_ [_ [_ [_ [_ H]]]]]] := unique_columns HP HQ Fg Fh (leqnn c). move=> i j Hi Hj. exact: H.
Qed.
End Unique.
