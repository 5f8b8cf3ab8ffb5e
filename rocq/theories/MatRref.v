(** inplace_rref leaves a row equivalent matrix in reduced row echelon form;
    inverse inverts (src/Mat.hpp:420-473). *)
From Verif Require Import Base IntModel ElemModel ElemSpec ElemProofs VecModel MatModel MatSpec MatProofs MatElim.
From mathcomp Require Import all_ssreflect fingroup perm all_algebra zify.
From Verif Require Import MatAlg MatCof MatDet MatRrefSpec.
Set Implicit Arguments. Unset Strict Implicit. Unset Printing Implicit Defensive.
Import GRing.Theory.
Local Open Scope ring_scope.

Section Alg.
Context {F : fieldType}.
Implicit Types (g h : nat -> nat -> F).
Lemma req_refl n c g : row_equivalent n c g g.
Proof. exists 1%:M; first exact: unitmx1. by rewrite mul1mx. Qed.
Lemma req_trans n c g h k : row_equivalent n c g h -> row_equivalent n c h k -> row_equivalent n c g k.
Proof. move=> [P Pu E1] [Q Qu E2]. exists (Q *m P); first by rewrite unitmx_mul Qu. by rewrite E2 E1 mulmxA. Qed.
Lemma req_swap n c g a b : (a < n)%N -> (b < n)%N -> row_equivalent n c g (fun i j => g (trans a b i) j).
Proof.
  move=> Ha Hb. set oa := Ordinal Ha; set ob := Ordinal Hb. exists (perm_mx (tperm oa ob)); first exact: unitmx_perm.
  rewrite -row_permE. apply/matrixP=> i j. rewrite !mxE trans_eq. congr (g _ _).
  case: tpermP => [->|->|]; rewrite /= ?eqxx //.
  - by case: eqP.
  - move=> /eqP; rewrite -val_eqE /= => /negbTE -> /eqP. by rewrite -val_eqE /= => /negbTE ->.
Qed.
Lemma req_scale n c g r (s : F) : s <> 0 -> row_equivalent n c g (fun i j => if Nat.eqb i r then g i j / s else g i j).
Proof.
  move=> /eqP Hs. exists (diag_mx (\row_(i < n) if val i == r then s^-1 else 1)).
  - rewrite unitmxE det_diag unitfE. apply/prodf_neq0 => i _. rewrite mxE. case: ifP => _; [by rewrite invr_eq0|exact: oner_neq0].
  - rewrite mul_diag_mx. apply/matrixP => i j. rewrite !mxE /=.
    case: (PeanoNat.Nat.eqb_spec i r) => [->|/eqP/negbTE ->]; rewrite ?eqxx ?mul1r //. by rewrite mulrC.
Qed.
Lemma req_clear n c g r q : (r < n)%N -> row_equivalent n c g (fun i j => if Nat.eqb i r then g i j else g i j - g i q * g r j).
Proof.
  move=> Hr. set o := Ordinal Hr. pose u : 'cV[F]_n := \col_i (if i == o then 0 else g i q).
  pose e : 'rV[F]_n := delta_mx 0 o.
  have Z : e *m u = 0. { rewrite /e -rowE. apply/matrixP => i j. by rewrite !mxE eqxx. }
  exists (1%:M - u *m e).
  - have I : (1%:M - u *m e) *m (1%:M + u *m e) = 1%:M.
    { rewrite mulmxDr mulmx1 mulmxBl mul1mx -mulmxA (mulmxA e) Z mul0mx mulmx0 subr0. by rewrite subrK. }
    by have [] := mulmx1_unit I.
  - rewrite mulmxBl mul1mx -mulmxA /e -rowE. apply/matrixP => i j. rewrite !mxE big_ord1 !mxE -val_eqE /=.
    case: (PeanoNat.Nat.eqb_spec i r) => [->|/eqP/negbTE ->]; rewrite ?eqxx ?mul0r ?subr0 //.
Qed.

(** the state before row r *)
Definition rref_inv n c r p g : Prop :=
  (r <= n)%N /\ (p <= c)%N /\ exists piv,
  (forall k, (k < r)%N -> (piv k < p)%N /\ g k (piv k) = 1 /\
     (forall i, (i < n)%N -> i <> k -> g i (piv k) = 0) /\ (forall j, (j < piv k)%N -> g k j = 0)) /\
  (forall k l, (k < l)%N -> (l < r)%N -> (piv k < piv l)%N) /\
  (forall i j, (r <= i < n)%N -> (j < p)%N -> g i j = 0).
Lemma rref_end n c r p g : rref_inv n c r p g ->
  (r < n -> p < c -> forall i j, (r <= i < n) -> (p <= j < c) -> g i j = 0%R)%N -> is_rref n c g.
Proof.
  move=> [Hr [Hp [piv [Hk [Hm Hz]]]]] Hn. exists r, piv. split=> //. split; [|split] => //.
  - move=> k Hkr. have [H1 [H2 [H3 H4]]] := Hk k Hkr. split=> //. lia.
  - move=> i j Hi Hj. case: (ltnP j p) => L; first exact: Hz. apply: Hn => //; lia.
Qed.
Definition pivoted g i r q (a b : nat) : F :=
  let g1 a b := g (trans i r a) b in
  let g2 a b := if Nat.eqb a r then g1 a b / g1 r q else g1 a b in
  if Nat.eqb a r then g2 a b else g2 a b - g2 a q * g2 r b.
Lemma pivoted_req n c g i r q : (r < n)%N -> (i < n)%N -> g i q <> 0 -> row_equivalent n c g (pivoted g i r q).
Proof.
  move=> Hr Hi Hnz. eapply req_trans; first exact: (@req_swap n c g i r).
  eapply req_trans; first apply: (@req_scale n c _ r (g i q)) => //.
  have Tr : trans i r r = i by rewrite trans_eq eqxx; case: eqP.
  eapply req_trans; first exact: (@req_clear n c _ r q).
  exists 1%:M; first exact: unitmx1. rewrite mul1mx. apply: mx_ext => a b _ _. by rewrite /pivoted Tr.
Qed.
Lemma rref_step n c r p g i q : rref_inv n c r p g -> (r <= i < n)%N -> (p <= q < c)%N ->
  (forall k j, (r <= k < n)%N -> (p <= j < q)%N -> g k j = 0) -> g i q <> 0 ->
  rref_inv n c r.+1 q.+1 (pivoted g i r q).
Proof.
  move=> [Hr [Hp [piv [Hk [Hm Hz]]]]] Hi Hq Hn Hnz.
  have Tr : trans i r r = i by rewrite trans_eq eqxx; case: eqP.
  have Zr a j : (r <= a < n)%N -> (j < q)%N -> g a j = 0.
  { move=> Ha Hj. case: (ltnP j p) => L; [exact: Hz|]. apply: Hn; lia. }
  have Kr k : (k < r)%N -> trans i r k = k. { move=> Hkr. rewrite trans_eq. by case: eqP => ?; [lia|case: eqP => ?; [lia|]]. }
  have Rt a : (r <= a < n)%N -> (r <= trans i r a < n)%N. { move=> Ha. rewrite trans_eq. by case: eqP => ?; [lia|case: eqP => ?; lia]. }
  (* row r, and the other rows *)
  have Gr b : pivoted g i r q r b = g i b / g i q.
  { rewrite /pivoted Tr. by case: (PeanoNat.Nat.eqb_spec r r). }
  have Ga a b : a <> r -> pivoted g i r q a b = g (trans i r a) b - g (trans i r a) q * (g i b / g i q).
  { move=> Na. rewrite /pivoted Tr. case: (PeanoNat.Nat.eqb_spec a r) => // _. by case: (PeanoNat.Nat.eqb_spec r r). }
  have Gq a : a <> r -> pivoted g i r q a q = 0.
  { move=> Na. rewrite Ga // divff ?mulr1 ?subrr //. exact/eqP. }
  split; first by lia. split; first by lia.
  exists (fun k => if k == r then q else piv k). split; [|split].
  - move=> k Hkr. case: eqP => [->|Nk].
    + split=> //. split; first by rewrite Gr divff //; apply/eqP. split.
      * move=> a Ha Na. exact: Gq.
      * move=> j Hj. rewrite Gr Zr ?mul0r //.
    + have Hk' : (k < r)%N by lia. have [H1 [H2 [H3 H4]]] := Hk k Hk'.
      have Z : g i (piv k) = 0 by apply: H3; lia.
      split; first by lia. split; [|split].
      * by rewrite Ga // Z mul0r mulr0 subr0 Kr.
      * move=> a Ha Na. case: (eqVneq a r) => [->|/eqP Nr]; first by rewrite Gr Z mul0r.
        rewrite Ga // Z mul0r mulr0 subr0. case: (ltnP a r) => L.
        -- rewrite Kr //. exact: H3.
        -- have := Rt a. move=> /(_ ltac:(lia)) La. apply: H3; lia.
      * move=> j Hj. rewrite Ga // Kr // H4 // (Zr i j) //; last by lia. by rewrite mul0r mulr0 subr0.
  - move=> k l Hkl Hl. case: eqP => [?|Nk]; first by lia. case: eqP => [El|Nl].
    + have Hk' : (k < r)%N by lia. have [H1 _] := Hk k Hk'. lia.
    + apply: Hm; lia.
  - move=> a b Ha Hb. have Na : a <> r by lia. case: (eqVneq b q) => [->|/eqP Nb]; first exact: Gq.
    rewrite Ga // (Zr i b) ?mul0r ?mulr0 ?subr0; [|lia|lia]. apply: Zr; last by lia. apply: Rt. lia.
Qed.

(** [g | 1] *)
Definition augmented n g (i j : nat) : F := if Nat.ltb j n then g i j else if Nat.eqb i (j - n) then 1 else 0.
Lemma blocks n g h : row_equivalent n (n + n) (augmented n g) h ->
  exists2 P : 'M[F]_n, P \in unitmx & mx n n h = P *m mx n n g /\ mx n n (fun i j => h i (j + n)%N) = P.
Proof.
  move=> [P Pu HP]. exists P => //.
  have E1 : mx n (n + n) (augmented n g) = row_mx (mx n n g) 1%:M.
  { apply/matrixP => i j. rewrite !mxE. case: splitP => k Ek; rewrite !mxE /augmented Ek.
    - by case: (PeanoNat.Nat.ltb_spec k n) => //; have := ltn_ord k; lia.
    - case: (PeanoNat.Nat.ltb_spec (n + k)%N n) => L; first by lia. rewrite addKn.
      rewrite -val_eqE /=. by case: (PeanoNat.Nat.eqb_spec i k) => [->|/eqP/negbTE ->]; rewrite ?eqxx. }
  have E2 : mx n (n + n) h = row_mx (mx n n h) (mx n n (fun i j => h i (j + n)%N)).
  { apply/matrixP => i j. rewrite !mxE. by case: splitP => k Ek; rewrite !mxE Ek // addnC. }
  move: HP. rewrite E1 E2 mul_mx_row mulmx1 => /eq_row_mx [-> ->]. by split.
Qed.
Lemma zero_row n (M : 'M[F]_n) i : (forall j, M i j = 0) -> M \notin unitmx.
Proof. move=> H. rewrite unitmxE unitfE negbK (expand_det_row _ i). apply/eqP. apply: big1 => j _. by rewrite H mul0r. Qed.
Lemma rref_unit n h : is_rref n (n + n) h -> mx n n h \in unitmx -> forall i j, (i < n)%N -> (j < n)%N -> h i j = (i == j)%:R.
Proof.
  move=> [rk [piv [Hrk [Hk [Hm Hz]]]]] U i j Hi Hj.
  (* the last row is not zero *)
  have N : n.-1.+1 = n by lia.
  have NZ : ~ (forall b, (b < n)%N -> h n.-1 b = 0).
  { move=> Zb. have Hn : (n.-1 < n)%N by lia.
    have := @zero_row n (mx n n h) (Ordinal Hn) _. rewrite U => /(_ _)/negP. apply=> //. move=> b. by rewrite mxE /= Zb. }
  have Rk : rk = n.
  { apply/eqP. rewrite eqn_leq Hrk /= leqNgt. apply/negP => L. apply: NZ => b Hb. apply: Hz; lia. }
  subst rk.
  have Pn : (piv n.-1 <= n.-1)%N.
  { rewrite leqNgt. apply/negP => L. apply: NZ => b Hb. have [_ [_ [_ Hl]]] := Hk n.-1 ltac:(lia). apply: Hl. lia. }
  have Inc d : forall k, (k + d < n)%N -> (piv k + d <= piv (k + d))%N.
  { elim: d => [|d IH] k Hd; first by rewrite !addn0. have Hd' : (k + d < n)%N by lia.
    have := IH k Hd'. have := Hm (k + d)%N (k + d.+1)%N. lia. }
  have Pk k : (k < n)%N -> piv k = k.
  { move=> L. have A1 := Inc k 0%N. have A2 := Inc (n.-1 - k)%N k. rewrite add0n in A1. have E1 : (k + (n.-1 - k))%N = n.-1 by lia.
    rewrite E1 in A2. lia. }
  have [_ [E1 [E2 _]]] := Hk j Hj. rewrite Pk // in E1 E2. case: eqP => [->|Nij] //. exact: E2.
Qed.
End Alg.

Section Prog.
Context {T : Type} {F : fieldType} (E : ops T) (ab : halt -> Prop) (R : T -> F -> Prop).
Hypotheses (H0 : R (of_int E 0) 0) (H1 : R (of_int E 1) 1)
  (HsubA : assign_exact ab R R R (subA E) (fun a b => a - b)) (Hmul : binary_exact ab R (mul E) *%R)
  (HdivA : forall x y a b, R x a -> R y b -> b <> 0 -> ret ab (divA E x (Some y)) (fun z => R z (a / b)))
  (Heq : forall x y a b, R x a -> R y b -> ret ab (ElemModel.eqb E x y) (fun e => e = true <-> a = b)).

Lemma rref_rows_ok n c k : forall r p m g, (r + k = n)%N -> mat_of R m n c g -> rref_inv n c r p g ->
  sret ab (rref_rows E k r p m) (fun d => exists h, mat_of R d n c h /\ is_rref n c h /\ row_equivalent n c g h).
Proof.
  elim: k => [|k IH] r p m g Hk Hm HI; cbn [rref_rows].
  { apply: sret_done. exists g. split=> //. split; last exact: req_refl. apply: (rref_end HI). lia. }
  have [Dr [Dc _]] := mat_of_dims R m n c g Hm. rewrite Dc.
  case: (PeanoNat.Nat.leb_spec c p) => L.
  { apply: sret_done. exists g. split=> //. split; last exact: req_refl. apply: (rref_end HI). lia. }
  have Hr : lt r n by lia.
  eapply sret_eval; [exact (@find_pivot_start _ _ E ab R 0 H0 Heq m n c g r p Hm Hr L)|]. move=> o Ho. cbn beta in Ho.
  case: o Ho => [[i q]|] Ho; last first.
  { apply: sret_done. exists g. split=> //. split; last exact: req_refl. apply: (rref_end HI) => _ _ a b Ha Hb. apply: Ho; lia. }
  have [Hi [Hq [Hnz Hz]]] := Ho. have Hq' : lt q c by lia.
  have Tr : trans i r r = i by rewrite trans_eq eqxx; case: eqP.
  eapply sret_andthen; [by apply: (swap_rows_ok ab R m n c g i r Hm); lia|]. move=> m1 Hm1. cbn beta in Hm1.
  eapply sret_eval; [exact (entry_of ab R m1 n c _ r q Hm1 Hr Hq')|]. move=> v Hv. cbn beta in Hv.
  have Hnz1 : g (trans i r r) q <> 0 by rewrite Tr.
  eapply sret_andthen; [exact (@scale_row_ok _ _ E ab R 0 _ HdivA m1 n c _ r q v Hm1 Hr Hq' Hv Hnz1)|]. move=> m2 Hm2. cbn beta in Hm2.
  eapply sret_andthen; [exact (@rref_clear_ok _ _ E ab R _ _ HsubA Hmul m2 n c _ r q Hm2 Hr Hq')|]. move=> m3 Hm3. cbn beta in Hm3.
  have -> : (q + 1)%coq_nat = q.+1 by lia.
  eapply sret_mono; first apply: (IH r.+1 q.+1 m3 (pivoted g i r q)) => //; first by lia.
  - apply: (rref_step HI) => //; try lia. move=> a b Ha Hb. apply: Hz; lia.
  - move=> d [h [Hd [Rh Eh]]]. exists h. split=> //. split=> //. eapply req_trans; last exact: Eh. apply: pivoted_req => //; lia.
Qed.
Theorem inplace_rref_ok n c m g : mat_of R m n c g ->
  sret ab (inplace_rref E m) (fun d => exists h, mat_of R d n c h /\ is_rref n c h /\ row_equivalent n c g h).
Proof.
  move=> Hm. rewrite /inplace_rref. have [-> _] := mat_of_dims R m n c g Hm. apply: rref_rows_ok => //.
  split=> //. split=> //. by exists (fun=> 0%N); split; [|split].
Qed.
Theorem rref_ok n c m g : mat_of R m n c g ->
  ret ab (rref E m) (fun d => exists h, mat_of R d n c h /\ is_rref n c h /\ row_equivalent n c g h).
Proof.
  move=> Hm. rewrite /rref. eapply ret_bind; [exact (Mat_copy_ok E ab R m n c g Hm)|]. move=> d Hd. apply: ret_final. exact: inplace_rref_ok.
Qed.

(** *** inverse *)
(** the outcome is normal with Q, the domain error, or an abort *)
Definition tret {S} (p : outcome S) (Q : S -> Prop) : Prop := sret ab p Q \/ snd p = Throw DomainError.
Lemma tret_andthen {S} (p : outcome S) k (P Q : S -> Prop) :
  tret p P -> (forall s, P s -> tret (k s) Q) -> tret (andthen p k) Q.
Proof.
  case: p => s r. move=> [[[/= -> HP]|[hh [Ha /= ->]]]|/= ->] Hk /=; [exact: Hk|left; right; exists hh; by case: hh Ha|by right].
Qed.
Lemma tret_for {S} (I : nat -> S -> Prop) n : forall a body s,
  I a s -> (forall i s, le a i -> lt i (a + n) -> I i s -> tret (body i s) (I i.+1)) -> tret (for_ n a body s) (I (a + n)%N).
Proof.
  elim: n => [|n IH] a body s Hs Hb /=; first by left; left; rewrite addn0.
  eapply tret_andthen; [apply: Hb => //; lia|]. move=> s' Hs'. rewrite addnS -addSn. apply: IH => // i s2 H1' H2'. apply: Hb; lia.
Qed.
Lemma tret_for2 {S} (I : nat -> nat -> S -> Prop) r c body s :
  I 0%N 0%N s -> (forall i j s, lt i r -> lt j c -> I i j s -> tret (body i j s) (I i j.+1)) ->
  (forall i s, lt i r -> I i c s -> I i.+1 0%N s) -> tret (for2 r c body s) (I r 0%N).
Proof.
  move=> Hs Hb Hn. apply: (tret_for (I := fun i => I i 0%N) (n := r) (a := 0%N)) => // i s1 _ Hi H1'.
  have := tret_for (I := I i) (n := c) (a := 0%N) H1'. move=> /(_ (body i)) H.
  case: H => [j s2 _ Hj Hs2|[[Hok HI]|Hab]|Ht]; [exact: Hb|left; left; split=> //; exact: Hn|by left; right|by right].
Qed.

Definition id_at (i j : nat) : F := if Nat.eqb i j then 1 else 0.
Lemma id_at_eq i j : id_at i j = (i == j)%:R.
Proof. rewrite /id_at. by case: (PeanoNat.Nat.eqb_spec i j) => [->|/eqP/negbTE ->]; rewrite ?eqxx. Qed.
Lemma inverse_loop n r identity res h : mat_of R r n (n + n) h -> mat_of R identity n n id_at -> dims res n n ->
  let p := for2 n n (fun i j result =>
    eval result (x <- entry r i j ;; y <- entry identity i j ;; ElemModel.eqb E x y) (fun e : bool =>
      if e then eval result (entry r i (j + n)%coq_nat) (fun x => set_entry result i j x)
      else (result, Throw DomainError))) res in
  ((forall i j, (i < n)%N -> (j < n)%N -> h i j = (i == j)%:R) -> sret ab p (fun d => mat_of R d n n (fun i j => h i (j + n)%N))) /\
  (~ (forall i j, (i < n)%N -> (j < n)%N -> h i j = (i == j)%:R) -> ret ab (final p) (fun _ => False) \/ final p = Throw DomainError).
Proof.
  move=> Hr Hid Dres p.
  have Test i j : lt i n -> lt j n ->
    ret ab (x <- entry r i j ;; y <- entry identity i j ;; ElemModel.eqb E x y) (fun e => e = true <-> h i j = (i == j)%:R).
  { move=> Hi Hj. eapply ret_bind; [by apply: (entry_of ab R r n _ h i j Hr); lia|]. move=> x Hx. cbn beta in Hx.
    eapply ret_bind; [by apply: (entry_of ab R identity n n id_at i j Hid); lia|]. move=> y Hy. cbn beta in Hy.
    rewrite -id_at_eq. exact: Heq. }
  have Rd i j : lt i n -> lt j n -> ret ab (entry r i (j + n)%coq_nat) (fun x => R x (h i (j + n)%N)).
  { move=> Hi Hj. apply: (entry_of ab R r n _ h i (j + n)%N Hr); lia. }
  split.
  - move=> HL. eapply sret_mono; [|move=> d Hd; apply/mat_of_P; exact Hd].
    eapply each_ok; [exact (matP_any _ _ _ Dres)|]. move=> i j d Hi Hj Hd.
    eapply sret_eval; [exact (Test i j Hi Hj)|]. move=> e He. cbn beta in He. have -> : e = true by apply He, HL; lia.
    eapply sret_eval; [exact (Rd i j Hi Hj)|]. move=> x Hx. cbn beta in Hx.
    eapply set_ok; [exact Hd|exact Hi|exact Hj| |].
    + rewrite /mixed before_new. by exists x.
    + move=> i' j' o _ _ N. rewrite /mixed before_other //.
  - move=> HL. have : tret p (fun _ => forall a b, (a < n)%N -> (b < n)%N -> h a b = (a == b)%:R).
    { have := @tret_for2 _ (fun i j d => dims d n n /\ forall a b, lt b n -> before i j a b = true -> h a b = (a == b)%:R) n n
        (fun i j result => eval result (x <- entry r i j ;; y <- entry identity i j ;; ElemModel.eqb E x y) (fun e : bool =>
          if e then eval result (entry r i (j + n)%coq_nat) (fun x => set_entry result i j x) else (result, Throw DomainError))) res.
      case.
      + split=> // a b _. by rewrite before_0.
      + move=> i j d Hi Hj [Hd Hb]. case: (Test i j Hi Hj) => [[e [-> He]]|[hh [Hab ->]]] /=; last by left; right; exists hh; case: hh Hab.
        case: e He => He; last by right.
        left. eapply sret_eval; [exact (Rd i j Hi Hj)|]. move=> x Hx. eapply sret_mono.
        * eapply (set_ok ab) with (Q := fun _ _ _ => True); [exact (matP_any _ _ _ Hd)|exact Hi|exact Hj|done|done].
        * move=> d' Hd'. split; first exact (matP_dims _ _ _ _ Hd'). move=> a b Hb'. 
          case: (PeanoNat.Nat.eq_dec a i) => [->|Na]; last first.
          { rewrite before_other; [exact: Hb|by case]. }
          case: (PeanoNat.Nat.eq_dec b j) => [-> _|Nb]; first by apply He.
          rewrite before_other; [exact: Hb|by case].
      + move=> i d Hi [Hd Hb]. split=> // a b Hb'. rewrite -[i.+1]/(1 + i)%coq_nat -(before_row i n) //. exact: Hb.
      + move=> [[Hok [_ HI]]|Hab]; last by left; right.
        left. left. split=> // a b Ha Hb. apply: HI; first by lia. apply: before_all. lia.
      + by right. }
    rewrite /final. move: p => [s rr]. move=> [[[/= _ Hall]|[hh [Ha /= ->]]]|/= ->]; [by case: HL|by left; right; exists hh; case: hh Ha|by right].
Qed.

Theorem inverse_ok n m g : mat_of R m n n g -> mx n n g \in unitmx ->
  ret ab (inverse E m) (fun d => exists h, mat_of R d n n h /\ mx n n h = invmx (mx n n g)).
Proof.
  move=> Hm U. rewrite /inverse. have [Dr [Dc _]] := mat_of_dims R m n n g Hm. rewrite Dr Dc PeanoNat.Nat.eqb_refl /= {Dr Dc}.
  eapply ret_bind; [exact (identityMatrix_ok E ab R n 0 1 H0 H1)|]. move=> idm Hid. cbn beta in Hid.
  eapply ret_bind; [exact (augmentedMatrix_ok E ab R m idm n n n g _ Hm Hid)|]. move=> aug Haug. cbn beta in Haug.
  eapply ret_bind; [apply: ret_final; exact (inplace_rref_ok Haug)|]. move=> r [h [Hr [Rh Eh]]].
  have [P Pu [PL PR]] := blocks Eh.
  have [Hyes _] := inverse_loop Hr Hid (dims_new E n n).
  eapply ret_mono; [apply: ret_final; apply: Hyes|].
  - apply: rref_unit => //. by rewrite PL unitmx_mul Pu.
  - move=> d Hd. exists (fun i j => h i (j + n)%N). split=> //. rewrite PR.
    have L : mx n n h = 1%:M.
    { apply/matrixP => i j. rewrite !mxE. apply: (rref_unit Rh) => //. by rewrite PL unitmx_mul Pu. }
    rewrite L in PL. by rewrite -[P]mulmx1 -(mulmxV U) mulmxA -PL mul1mx.
Qed.
Theorem inverse_singular n m g : mat_of R m n n g -> mx n n g \notin unitmx ->
  inverse E m = Throw DomainError \/ ret ab (inverse E m) (fun _ => False).
Proof.
  move=> Hm U. rewrite /inverse. have [Dr [Dc _]] := mat_of_dims R m n n g Hm. rewrite Dr Dc PeanoNat.Nat.eqb_refl /= {Dr Dc}.
  case: (identityMatrix_ok E ab R n 0 1 H0 H1) => [[idm [-> Hid]]|[hh [Ha ->]]] /=; last by right; right; exists hh; case: hh Ha.
  case: (augmentedMatrix_ok E ab R m idm n n n g _ Hm Hid) => [[aug [-> Haug]]|[hh [Ha ->]]] /=; last by right; right; exists hh; case: hh Ha.
  have X := inplace_rref_ok Haug. apply ret_final in X. case: X => [[r [-> [h [Hr [Rh Eh]]]]]|[hh [Ha ->]]] /=; last by right; right; exists hh; case: hh Ha.
  have [P Pu [PL PR]] := blocks Eh.
  have [_ Hno] := inverse_loop Hr Hid (dims_new E n n).
  case: Hno => [HL|Hs|?]; [|by right|by left].
  move: U. have [] := @mulmx1_unit _ _ P (mx n n g); last by move=> _ ->.
  rewrite -PL. apply/matrixP => i j. rewrite !mxE. exact: HL.
Qed.
End Prog.

Lemma inverse_bad {T} (E : ops T) (m : Mat T) r c : dims m r c -> r <> c -> inverse E m = Throw DomainError.
Proof.
  move=> [Dr [Dc _]] N. have H : Nat.eqb (rows m) (cols m) = false by apply/PeanoNat.Nat.eqb_neq; rewrite Dr Dc.
  by rewrite /inverse H.
Qed.
