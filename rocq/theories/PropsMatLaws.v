(** Property theorems C98: the laws of matrix arithmetic hold between the results
    that the operations of Mat return. *)
From Coq Require Import QArith.
From Verif Require Import Base IntModel IntSpec ElemModel ElemSpec ElemProofs ElemInst VecModel MatModel MatSpec MatProofs.
From Verif Require PropsMat PropsMatAlg.
From mathcomp Require Import all_ssreflect all_algebra zify ssrZ.
From Verif Require Import MatAlg MatCof MatDet MatRrefSpec MatRref MatUnique MatLaws.
Set Implicit Arguments. Unset Strict Implicit. Unset Printing Implicit Defensive.
Import GRing.Theory.
Local Open Scope ring_scope.
Delimit Scope Z_scope with Z.

(** two instances of exact operations: an abstract commutative ring (field) itself,
    and the class Int, whose canonical values represent the integers *)
Theorem C98_exact_ring : forall (A : comRingType) (z : Z -> A) (fr : option A) (d : A -> A -> A), z Z0 = 0 -> z (Zpos xH) = 1 ->
  exact_ring (exact_ops z fr +%R (fun a b => a - b) *%R d -%R (fun a b => a == b)) eq.
Proof.
  move=> A z fr d z0 z1. split=> //.
  - by move=> x y a -> ->.
  - exact: exact_add. - exact: exact_sub. - exact: exact_mul. - exact: exact_addA. - exact: exact_subA.
  - move=> x a ->. by left; exists (- a).
  - exact: PropsMatAlg.ring_eq.
Qed.
Theorem C98_exact_field : forall (K : fieldType) (z : Z -> K) (fr : option K), z Z0 = 0 -> z (Zpos xH) = 1 -> z (Zneg xH) = -1 ->
  exact_field (exact_ops z fr +%R (fun a b => a - b) *%R (fun a b => a / b) -%R (fun a b => a == b)) eq.
Proof.
  move=> K z fr z0 z1 zn. split=> //.
  - exact: C98_exact_ring.
  - exact: exact_mulA. - exact: PropsMatAlg.field_div. - exact: PropsMatAlg.field_divA.
Qed.
Theorem C98_exact_Int : exact_ring Int_ops R_int.
Proof.
  split.
  - move=> x y a [Cx Vx] [Cy Vy]. apply: IntBasics.canonical_unique_lemma => //. by rewrite Vx Vy.
  - by apply: Int_const_exact; lia.
  - by apply: Int_const_exact; lia.
  - exact Int_add_exact. - exact Int_sub_exact. - exact Int_mul_exact. - exact Int_addA_exact. - exact Int_subA_exact.
  - exact PropsMat.Int_neg_exact.
  - exact Int_eq_exact.
Qed.

(** every entry of x has been set, to a representation of some element *)
Definition mat {T} {A : ringType} (R : T -> A -> Prop) (x : Mat T) (n m : nat) : Prop := exists g, mat_of R x n m g.

(** name a result *)
Tactic Notation "got" uconstr(L) "as" ident(d) ident(e) ident(P) := have [d [e P]] := L.

Section Ring.
Context {T : Type} {A : comRingType} (E : ops T) (R : T -> A -> Prop) (H : exact_ring E R).
Local Notation mat := (mat R).
Local Lemma eqr n m x y (M : 'M_(n, m)) N : rep R x M -> rep R y N -> M = N -> x = y.
Proof. move=> Hx Hy e. rewrite e in Hx. exact: (rep_eq H Hx Hy). Qed.

(** the product is associative *)
Theorem C98_assoc : forall x y w n m p q, mat x n m -> mat y m p -> mat w p q -> exists xy yw r,
  M_product E x y = Ok xy /\ M_product E y w = Ok yw /\ M_product E xy w = Ok r /\ M_product E x yw = Ok r.
Proof.
  move=> x y w n m p q [X /rep_of Hx] [Y /rep_of Hy] [W /rep_of Hw].
  got (rep_mul H Hx Hy) as a Ea Ha. got (rep_mul H Hy Hw) as b Eb Hb. got (rep_mul H Ha Hw) as c Ec Hc. got (rep_mul H Hx Hb) as d Ed Hd.
  exists a, b, c. do 3 (split=> //). rewrite Ed. congr Ok. apply: (eqr Hd Hc). exact: mulmxA.
Qed.
(** and distributes over + on both sides *)
Theorem C98_distr : forall x y w n m p, mat x n m -> mat y m p -> mat w m p -> exists s xs xy xw,
  M_add E y w = Ok s /\ M_product E x s = Ok xs /\ M_product E x y = Ok xy /\ M_product E x w = Ok xw /\ M_add E xy xw = Ok xs.
Proof.
  move=> x y w n m p [X /rep_of Hx] [Y /rep_of Hy] [W /rep_of Hw].
  got (rep_add H Hy Hw) as s Es Hs. got (rep_mul H Hx Hs) as a Ea Ha. got (rep_mul H Hx Hy) as b Eb Hb. got (rep_mul H Hx Hw) as c Ec Hc.
  got (rep_add H Hb Hc) as d Ed Hd. exists s, a, b, c. do 4 (split=> //). rewrite Ed. congr Ok. apply: (eqr Hd Ha). by rewrite mulmxDr.
Qed.
Theorem C98_distr_right : forall x y w n m p, mat x n m -> mat y n m -> mat w m p -> exists s sw xw yw,
  M_add E x y = Ok s /\ M_product E s w = Ok sw /\ M_product E x w = Ok xw /\ M_product E y w = Ok yw /\ M_add E xw yw = Ok sw.
Proof.
  move=> x y w n m p [X /rep_of Hx] [Y /rep_of Hy] [W /rep_of Hw].
  got (rep_add H Hx Hy) as s Es Hs. got (rep_mul H Hs Hw) as a Ea Ha. got (rep_mul H Hx Hw) as b Eb Hb. got (rep_mul H Hy Hw) as c Ec Hc.
  got (rep_add H Hb Hc) as d Ed Hd. exists s, a, b, c. do 4 (split=> //). rewrite Ed. congr Ok. apply: (eqr Hd Ha). by rewrite mulmxDl.
Qed.
Theorem C98_identity : forall x n m, mat x n m -> exists i j, identityMatrix E n = Ok i /\ identityMatrix E m = Ok j /\
  M_product E i x = Ok x /\ M_product E x j = Ok x.
Proof.
  move=> x n m [X /rep_of Hx]. got (rep_one H n) as i Ei Hi. got (rep_one H m) as j Ej Hj.
  got (rep_mul H Hi Hx) as a Ea Ha. got (rep_mul H Hx Hj) as b Eb Hb. exists i, j. do 2 (split=> //). rewrite Ea Eb.
  split; congr Ok; [apply: (eqr Ha Hx)|apply: (eqr Hb Hx)]; by rewrite ?mul1mx ?mulmx1.
Qed.
(** + makes the matrices of one shape a commutative group *)
Theorem C98_group : forall x y w n m, mat x n m -> mat y n m -> mat w n m -> exists xy yw r nx ny d z,
  M_add E x y = Ok xy /\ M_add E y x = Ok xy /\ M_add E y w = Ok yw /\ M_add E xy w = Ok r /\ M_add E x yw = Ok r /\
  M_neg E x = Ok nx /\ M_neg E nx = Ok x /\ M_neg E y = Ok ny /\ M_sub E x y = Ok d /\ M_add E x ny = Ok d /\ M_add E d y = Ok x /\
  M_sub E x x = Ok z /\ M_add E x nx = Ok z /\ M_add E y z = Ok y.
Proof.
  move=> x y w n m [X /rep_of Hx] [Y /rep_of Hy] [W /rep_of Hw].
  got (rep_add H Hx Hy) as xy Exy Hxy. got (rep_add H Hy Hx) as yx Eyx Hyx. got (rep_add H Hy Hw) as yw Eyw Hyw. got (rep_add H Hxy Hw) as r Er Hr.
  got (rep_add H Hx Hyw) as r' Er' Hr'. got (rep_neg H Hx) as nx Enx Hnx. got (rep_neg H Hnx) as x' Ex' Hx'. got (rep_neg H Hy) as ny Eny Hny.
  got (rep_sub H Hx Hy) as d Ed Hd. got (rep_add H Hx Hny) as d' Ed' Hd'. got (rep_add H Hd Hy) as u Eu Hu. got (rep_sub H Hx Hx) as z Ez Hz.
  got (rep_add H Hx Hnx) as z' Ez' Hz'. got (rep_add H Hy Hz) as v Ev Hv.
  have Q1 : yx = xy by apply: (eqr Hyx Hxy); exact: addrC.
  have Q2 : r' = r by apply: (eqr Hr' Hr); exact: addrA.
  have Q3 : x' = x by apply: (eqr Hx' Hx); exact: opprK.
  have Q4 : d' = d by apply: (eqr Hd' Hd).
  have Q5 : u = x by apply: (eqr Hu Hx); rewrite subrK.
  have Q6 : z' = z by apply: (eqr Hz' Hz).
  have Q7 : v = y by apply: (eqr Hv Hy); rewrite subrr addr0.
  rewrite {}Q1 in Eyx. rewrite {}Q2 in Er'. rewrite {}Q3 in Ex'. rewrite {}Q4 in Ed'. rewrite {}Q5 in Eu. rewrite {}Q6 in Ez'. rewrite {}Q7 in Ev.
  exists xy, yw, r, nx, ny, d, z. by do 13 (split=> //).
Qed.
(** a scalar moves freely through products *)
Theorem C98_scale : forall x y s t n m p a b, mat x n m -> mat y m p -> R s a -> R t b -> exists xy sx sy r st u tx,
  M_product E x y = Ok xy /\ M_scale E s x = Ok sx /\ M_scale E s y = Ok sy /\
  M_scale E s xy = Ok r /\ M_product E sx y = Ok r /\ M_product E x sy = Ok r /\
  mul E s t = Ok st /\ M_scale E t x = Ok tx /\ M_scale E s tx = Ok u /\ M_scale E st x = Ok u.
Proof.
  move=> x y s t n m p a b [X /rep_of Hx] [Y /rep_of Hy] Hs Ht.
  got (rep_mul H Hx Hy) as xy Exy Hxy. got (rep_scale H Hx Hs) as sx Esx Hsx. got (rep_scale H Hy Hs) as sy Esy Hsy. got (rep_scale H Hxy Hs) as r Er Hr.
  got (rep_mul H Hsx Hy) as r1 Er1 Hr1. got (rep_mul H Hx Hsy) as r2 Er2 Hr2. got (ret_False _ _ (er_mul H Hs Ht)) as st Est Hst.
  got (rep_scale H Hx Ht) as tx Etx Htx. got (rep_scale H Htx Hs) as u Eu Hu. got (rep_scale H Hx Hst) as v Ev Hv.
  exists xy, sx, sy, r, st, u, tx. do 4 (split=> //). rewrite Er1 Er2 Ev. split; last split; last do 3 (split=> //).
  - congr Ok. apply: (eqr Hr1 Hr). by rewrite scalemxAl.
  - congr Ok. apply: (eqr Hr2 Hr). by rewrite scalemxAr.
  - congr Ok. apply: (eqr Hv Hu). by rewrite scalerA.
Qed.
(** transposing reverses products, respects sums and undoes itself *)
Theorem C98_transpose : forall x y w n m p, mat x n m -> mat w n m -> mat y m p -> exists xt yt wt xy xyt s st,
  transpose E x = Ok xt /\ transpose E xt = Ok x /\ transpose E y = Ok yt /\ M_product E x y = Ok xy /\
  transpose E xy = Ok xyt /\ M_product E yt xt = Ok xyt /\
  transpose E w = Ok wt /\ M_add E x w = Ok s /\ transpose E s = Ok st /\ M_add E xt wt = Ok st.
Proof.
  move=> x y w n m p [X /rep_of Hx] [W /rep_of Hw] [Y /rep_of Hy].
  got (rep_tr E Hx) as xt Ext Hxt. got (rep_tr E Hxt) as x' Ex' Hx'. got (rep_tr E Hy) as yt Eyt Hyt. got (rep_mul H Hx Hy) as xy Exy Hxy.
  got (rep_tr E Hxy) as xyt Exyt Hxyt. got (rep_mul H Hyt Hxt) as r Er Hr. got (rep_tr E Hw) as wt Ewt Hwt. got (rep_add H Hx Hw) as s Es Hs.
  got (rep_tr E Hs) as st Est Hst. got (rep_add H Hxt Hwt) as u Eu Hu.
  have Q1 : x' = x by apply: (eqr Hx' Hx); exact: trmxK.
  have Q2 : r = xyt by apply: (eqr Hr Hxyt); rewrite trmx_mul.
  have Q3 : u = st by apply: (eqr Hu Hst); rewrite linearD.
  rewrite {}Q1 in Ex'. rewrite {}Q2 in Er. rewrite {}Q3 in Eu. exists xt, yt, wt, xy, xyt, s, st. by do 9 (split=> //).
Qed.
(** trace(xy) = trace(yx), whatever the shapes; trace is additive and blind to transposition *)
Theorem C98_trace : forall x y n m, mat x n m -> mat y m n -> exists xy yx t,
  M_product E x y = Ok xy /\ M_product E y x = Ok yx /\ MatModel.trace E xy = Ok t /\ MatModel.trace E yx = Ok t.
Proof.
  move=> x y n m [X /rep_of Hx] [Y /rep_of Hy]. got (rep_mul H Hx Hy) as xy Exy Hxy. got (rep_mul H Hy Hx) as yx Eyx Hyx.
  got (rep_trace H Hxy) as t Et Ht. got (rep_trace H Hyx) as u Eu Hu. exists xy, yx, t. do 3 (split=> //). rewrite Eu. congr Ok.
  rewrite mxtrace_mulC in Hu. exact: (er_unique H Hu Ht).
Qed.
Theorem C98_trace_sum : forall x y n, mat x n n -> mat y n n -> exists s xt t u v,
  M_add E x y = Ok s /\ transpose E x = Ok xt /\ MatModel.trace E x = Ok t /\ MatModel.trace E xt = Ok t /\
  MatModel.trace E y = Ok u /\ add E t u = Ok v /\ MatModel.trace E s = Ok v.
Proof.
  move=> x y n [X /rep_of Hx] [Y /rep_of Hy]. got (rep_add H Hx Hy) as s Es Hs. got (rep_tr E Hx) as xt Ext Hxt.
  got (rep_trace H Hx) as t Et Ht. got (rep_trace H Hxt) as t' Et' Ht'. got (rep_trace H Hy) as u Eu Hu.
  got (ret_False _ _ (er_add H Ht Hu)) as v Ev Hv. got (rep_trace H Hs) as v' Ev' Hv'. exists s, xt, t, u, v. do 3 (split=> //). rewrite Et' Ev'.
  split; last do 2 (split=> //); congr Ok.
  - rewrite mxtrace_tr in Ht'. exact: (er_unique H Ht' Ht).
  - rewrite mxtraceD in Hv'. exact: (er_unique H Hv' Hv).
Qed.
(** cofactor expansion: the same along the first row and the first column, for a
    matrix and its transpose, and multiplicative *)
Theorem C98_cofactor : forall x y n, mat x n.+1 n.+1 -> mat y n.+1 n.+1 -> exists xt xy d e f,
  row_cofactor_expansion E x = Ok d /\ col_cofactor_expansion E x = Ok d /\
  transpose E x = Ok xt /\ row_cofactor_expansion E xt = Ok d /\ col_cofactor_expansion E xt = Ok d /\
  row_cofactor_expansion E y = Ok e /\ mul E d e = Ok f /\
  M_product E x y = Ok xy /\ row_cofactor_expansion E xy = Ok f /\ col_cofactor_expansion E xy = Ok f.
Proof.
  move=> x y n [X /rep_of Hx] [Y /rep_of Hy]. got (rep_tr E Hx) as xt Ext Hxt. got (rep_mul H Hx Hy) as xy Exy Hxy.
  have [d [Ed [Ed' Hd]]] := rep_cof H Hx. have [dt [Edt [Edt' Hdt]]] := rep_cof H Hxt. have [e [Ee [_ He]]] := rep_cof H Hy.
  got (ret_False _ _ (er_mul H Hd He)) as f Ef Hf. have [g [Eg [Eg' Hg]]] := rep_cof H Hxy.
  rewrite det_tr in Hdt. rewrite det_mulmx in Hg. have Q1 := er_unique H Hdt Hd. have Q2 := er_unique H Hg Hf. subst dt g.
  exists xt, xy, d, e, f. by do 9 (split=> //).
Qed.
End Ring.

Section Field.
Context {T : Type} {K : fieldType} (E : ops T) (R : T -> K -> Prop) (F : exact_field E R).
Local Notation mat := (mat R).
Local Notation H := (ef_ring F).

(** Gaussian elimination computes what cofactor expansion does; it is
    multiplicative and blind to transposition *)
Theorem C98_determinant : forall x y n, mat x n n -> mat y n n -> exists xt xy d e f,
  MatModel.determinant E x = Ok d /\ (n <> 0%N -> row_cofactor_expansion E x = Ok d /\ col_cofactor_expansion E x = Ok d) /\
  transpose E x = Ok xt /\ MatModel.determinant E xt = Ok d /\
  MatModel.determinant E y = Ok e /\ mul E d e = Ok f /\ M_product E x y = Ok xy /\ MatModel.determinant E xy = Ok f.
Proof.
  move=> x y n [X /rep_of Hx] [Y /rep_of Hy]. got (rep_tr E Hx) as xt Ext Hxt. got (rep_mul H Hx Hy) as xy Exy Hxy.
  got (rep_det F Hx) as d Ed Hd. got (rep_det F Hxt) as dt Edt Hdt. got (rep_det F Hy) as e Ee He.
  got (ret_False _ _ (er_mul H Hd He)) as f Ef Hf. got (rep_det F Hxy) as g Eg Hg.
  rewrite det_tr in Hdt. rewrite det_mulmx in Hg. have Q1 := er_unique H Hdt Hd. have Q2 := er_unique H Hg Hf. subst dt g.
  exists xt, xy, d, e, f. split=> //. split; last by do 5 (split=> //).
  case: n X Y Hx Hy Hxt Hxy Hd He Hdt Hg Hf => // n X Y Hx Hy Hxt Hxy Hd He Hdt Hg Hf _.
  have [c [Ec [Ec' Hc]]] := rep_cof H Hx. by rewrite Ec Ec' (er_unique H Hc Hd).
Qed.
(** x has an inverse iff its determinant is not zero; then *)
Theorem C98_inverse : forall x n, mat x n n -> exists d, MatModel.determinant E x = Ok d /\
  ((R d 0 /\ inverse E x = Throw DomainError) \/
   (~ R d 0 /\ exists v vt xt i e one, inverse E x = Ok v /\ inverse E v = Ok x /\
      identityMatrix E n = Ok i /\ M_product E x v = Ok i /\ M_product E v x = Ok i /\
      transpose E x = Ok xt /\ transpose E v = Ok vt /\ inverse E xt = Ok vt /\
      MatModel.determinant E v = Ok e /\ mul E d e = Ok one /\ R one 1)).
Proof.
  move=> x n [X /rep_of Hx]. move: (mx n n X) Hx => M Hx. got (rep_det F Hx) as d Ed Hd. exists d. split=> //. case: (boolP (M \in unitmx)) => U.
  - right. have D : \det M != 0 by move: U; rewrite unitmxE unitfE. split; first by move=> Z; move: D; rewrite (er_fun H Hd Z) eqxx.
    got (rep_inv F Hx U) as v Ev Hv. have Uv : invmx M \in unitmx by rewrite unitmx_inv. got (rep_inv F Hv Uv) as x' Ex' Hx'.
    got (rep_one H n) as i Ei Hi. got (rep_mul H Hx Hv) as a Ea Ha. got (rep_mul H Hv Hx) as b Eb Hb. got (rep_tr E Hx) as xt Ext Hxt.
    got (rep_tr E Hv) as vt Evt Hvt. have Ut : M^T \in unitmx by rewrite unitmx_tr. got (rep_inv F Hxt Ut) as w Ew Hw.
    got (rep_det F Hv) as e Ee He. got (ret_False _ _ (er_mul H Hd He)) as one E1 H1.
    exists v, vt, xt, i, e, one. rewrite invmxK in Hx'. rewrite mulmxV // in Ha. rewrite mulVmx // in Hb. rewrite -trmx_inv in Hw.
    rewrite Ex' Ea Eb Ew (rep_eq H Hx' Hx) (rep_eq H Ha Hi) (rep_eq H Hb Hi) (rep_eq H Hw Hvt). do 10 (split=> //).
    move: H1. by rewrite matrix.det_inv divff.
  - left. split; last exact: (rep_sing F Hx U). move: U Hd. by rewrite unitmxE unitfE negbK => /eqP ->.
Qed.
(** the inverse of a product; solving a system of equations *)
Theorem C98_inverse_product : forall x y n vx vy, mat x n n -> mat y n n -> inverse E x = Ok vx -> inverse E y = Ok vy -> exists xy v,
  M_product E x y = Ok xy /\ M_product E vy vx = Ok v /\ inverse E xy = Ok v.
Proof.
  move=> x y n vx vy [X /rep_of Hx] [Y /rep_of Hy]. move: (mx n n X) (mx n n Y) Hx Hy => M N Hx Hy.
  case: (boolP (M \in unitmx)) => U; last by rewrite (rep_sing F Hx U). case: (boolP (N \in unitmx)) => V; last by rewrite (rep_sing F Hy V).
  got (rep_inv F Hx U) as a Ea Ha. got (rep_inv F Hy V) as b Eb Hb. rewrite Ea Eb => -[<-] [<-]. got (rep_mul H Hx Hy) as xy Exy Hxy.
  got (rep_mul H Hb Ha) as v Ev Hv. have W : M *m N \in unitmx by rewrite unitmx_mul U V. got (rep_inv F Hxy W) as w Ew Hw.
  exists xy, v. do 2 (split=> //). rewrite Ew. congr Ok. apply: (rep_eq H _ Hv). suff -> : invmx N *m invmx M = invmx (M *m N) by [].
  apply: (can_inj (mulKmx W)). rewrite mulmxV // -mulmxA (mulmxA N) mulmxV // mul1mx mulmxV //.
Qed.
Theorem C98_solve : forall x b v n m, mat x n n -> mat b n m -> inverse E x = Ok v -> exists s,
  M_product E v b = Ok s /\ M_product E x s = Ok b /\ forall t, mat t n m -> M_product E x t = Ok b -> t = s.
Proof.
  move=> x b v n m [X /rep_of Hx] [B /rep_of Hb]. move: (mx n n X) (mx n m B) Hx Hb => M N Hx Hb.
  case: (boolP (M \in unitmx)) => U; last by rewrite (rep_sing F Hx U).
  got (rep_inv F Hx U) as a Ea Ha. rewrite Ea => -[<-]. got (rep_mul H Ha Hb) as s Es Hs. exists s. split=> //. got (rep_mul H Hx Hs) as c Ec Hc. split.
  - rewrite Ec. congr Ok. rewrite mulKVmx // in Hc. exact: (rep_eq H Hc Hb).
  - move=> t [G /rep_of Ht] . got (rep_mul H Hx Ht) as u Eu Hu. rewrite Eu => -[Q]. rewrite Q in Hu. apply: (rep_eq H Ht).
    rewrite -(rep_fun H Hu Hb) mulKmx // in Hs.
Qed.
(** rref(x) = rref(y) iff the rows of x and y span the same space *)
Theorem C98_rref_rows : forall x y n c g h, mat_of R x n c g -> mat_of R y n c h -> (rref E x = rref E y <-> (mx n c g == mx n c h)%MS).
Proof. move=> x y n c g h /rep_of Hx /rep_of Hy. exact: (rref_rows F Hx Hy). Qed.
(** it is idempotent, and does not see an invertible factor on the left *)
Theorem C98_rref_idempotent : forall x n c, mat x n c -> exists r, rref E x = Ok r /\ rref E r = Ok r.
Proof. move=> x n c [X /rep_of Hx]. have [r [g [Er [Hr [Rg _]]]]] := rep_rref F Hx. exists r. split=> //. exact: (rref_fixed F Hr Rg). Qed.
Theorem C98_rref_product : forall p x v n c, mat p n n -> mat x n c -> inverse E p = Ok v -> exists px,
  M_product E p x = Ok px /\ rref E px = rref E x.
Proof.
  move=> p x v n c [P /rep_of Hp] [X /rep_of Hx]. move: (mx n n P) (mx n c X) Hp Hx => M N Hp Hx.
  case: (boolP (M \in unitmx)) => U; last by rewrite (rep_sing F Hp U). move=> _. got (rep_mul H Hp Hx) as px Epx Hpx. exists px. split=> //.
  apply/(rref_rows F Hpx Hx). apply/eqmxP. apply: eqmxMfull. by rewrite row_full_unit.
Qed.
(** a square matrix is invertible iff it is reduced to the identity *)
Theorem C98_rref_identity : forall x n, mat x n n -> exists i, identityMatrix E n = Ok i /\
  (rref E x = Ok i <-> exists v, inverse E x = Ok v).
Proof.
  move=> x n [X /rep_of Hx]. move: (mx n n X) Hx => M Hx. got (rep_one H n) as i Ei Hi. exists i. split=> //.
  have Ri : rref E i = Ok i.
  { have [g [Hg Eg]] := Hi. apply: (rref_fixed F Hg). exists n, id. have G a b : (a < n)%N -> (b < n)%N -> g a b = (a == b)%:R.
    { move=> La Lb. move/matrixP: Eg => /(_ (Ordinal La) (Ordinal Lb)). by rewrite !mxE. }
    split=> //. split; last split=> //; last by move=> a b; case/andP => L1 L2; lia.
    move=> k Lk. split=> //. split; first by rewrite G // eqxx. split.
    - move=> a La /eqP/negbTE Ne. by rewrite G // Ne.
    - move=> j Lj. rewrite G //; last exact: ltn_trans Lj Lk. by rewrite gtn_eqF. }
  rewrite -Ri (rref_rows F Hx Hi). split.
  - move=> /eqmx_rank. rewrite mxrank1 => Rk. have U : M \in unitmx by rewrite -row_free_unit /row_free Rk.
    got (rep_inv F Hx U) as v Ev Hv. by exists v.
  - move=> [v Ev]. case: (boolP (M \in unitmx)) => U; last by rewrite (rep_sing F Hx U) in Ev.
    apply/eqmxP. rewrite -[M]mulmx1. apply: eqmxMfull. by rewrite row_full_unit.
Qed.
(** the number of non-zero rows of rref(x) is the rank of x *)
Theorem C98_rref_rank : forall x n c g, mat_of R x n c g -> exists r h, rref E x = Ok r /\ mat_of R r n c h /\
  (forall i, (i < n)%N -> ((i < \rank (mx n c g))%N <-> exists2 j, (j < c)%N & h i j <> 0)).
Proof.
  move=> x n c g /rep_of Hx. have [r [h [Er [Hr [[rk [piv Fh]] S]]]]] := rep_rref F Hx. exists r, h. do 2 (split=> //).
  rewrite -(eqmx_rank S) (rref_rank Fh). have [_ [P [_ Z]]] := Fh. move=> i Li. split.
  - move=> L. have [L1 [L2 _]] := P i L. exists (piv i) => //. rewrite L2. apply/eqP. exact: oner_neq0.
  - move=> [j Lj N]. rewrite ltnNge. apply/negP => L. apply: N. apply: Z => //. by rewrite L.
Qed.
End Field.

(** Mat<Int>: with every entry in canonical form nothing fails, nothing overflows *)
Theorem C98_int : forall x y w n, mat R_int x n.+1 n.+1 -> mat R_int y n.+1 n.+1 -> mat R_int w n.+1 n.+1 -> exists xy yw yx xyw xt xyt d e f t,
  M_product Int_ops x y = Ok xy /\ M_product Int_ops y w = Ok yw /\ M_product Int_ops xy w = Ok xyw /\ M_product Int_ops x yw = Ok xyw /\
  transpose Int_ops x = Ok xt /\ transpose Int_ops xt = Ok x /\ transpose Int_ops xy = Ok xyt /\
  M_product Int_ops y x = Ok yx /\ MatModel.trace Int_ops xy = Ok t /\ MatModel.trace Int_ops yx = Ok t /\
  row_cofactor_expansion Int_ops x = Ok d /\ col_cofactor_expansion Int_ops x = Ok d /\ row_cofactor_expansion Int_ops xt = Ok d /\
  row_cofactor_expansion Int_ops y = Ok e /\ row_cofactor_expansion Int_ops xy = Ok f /\ row_cofactor_expansion Int_ops xyt = Ok f /\
  (IntSpec.val f = IntSpec.val d * IntSpec.val e)%Z.
Proof.
  move=> x y w n Hx Hy Hw. have X := C98_exact_Int.
  have [xy [yw [r [E1 [E2 [E3 E4]]]]]] := C98_assoc X Hx Hy Hw.
  have [xt [yt [_ [xy' [xyt [_ [_ [T1 [T2 [T3 [T4 [T5 _]]]]]]]]]]]] := C98_transpose X Hx Hw Hy.
  have [xy2 [yx [t [F1 [F2 [F3 F4]]]]]] := C98_trace X Hx Hy.
  have [xt' [xy3 [d [e [f [G1 [G2 [G3 [G4 [_ [G5 [G6 [G7 [G8 _]]]]]]]]]]]]]] := C98_cofactor X Hx Hy.
  move: T4 F1 G7 G3. rewrite E1 T1 => -[Q1] [Q2] [Q3] [Q4]. subst xy' xy2 xy3 xt'.
  have [g Hx'] := Hx. have [h Hy'] := Hy.
  have [p [Ep Hp]] := rep_mul X (rep_of Hx') (rep_of Hy'). have Q : p = xy by move: Ep; rewrite E1 => -[]. subst p.
  have [c1 [Ec1 [_ Hc1]]] := rep_cof X (rep_of Hx'). have [c2 [Ec2 [_ Hc2]]] := rep_cof X (rep_of Hy'). have [c3 [Ec3 [_ Hc3]]] := rep_cof X Hp.
  have [q [Eq Hq]] := rep_tr Int_ops Hp. have Q : q = xyt by move: Eq; rewrite T5 => -[]. subst q.
  have [c4 [Ec4 [_ Hc4]]] := rep_cof X Hq. rewrite det_tr in Hc4. have Q := er_unique X Hc4 Hc3. subst c4.
  move: Ec1 Ec2 Ec3 Ec4. rewrite G1 G5 G8 => -[Q1] [Q2] [Q3] Q4. subst c1 c2 c3.
  exists xy, yw, yx, r, xt, xyt, d, e, f, t. do 16 (split=> //).
  case: Hc3 => _ ->. case: Hc1 => _ ->. case: Hc2 => _ ->. exact: det_mulmx.
Qed.
Example C98_ex :
  let x := PropsMat.MI 2%N 2%N [:: 3; -1; 2; 1000000000]%Z in let y := PropsMat.MI 2%N 2%N [:: 0; 5; 7; -2]%Z in
  (xy <- M_product Int_ops x y ;; row_cofactor_expansion Int_ops xy) = Ok (PropsMat.I (-105000000070)%Z) /\
  row_cofactor_expansion Int_ops x = Ok (PropsMat.I 3000000002%Z) /\ row_cofactor_expansion Int_ops y = Ok (PropsMat.I (-35)%Z) /\
  (xy <- M_product Int_ops x y ;; transpose Int_ops xy) =
    (xt <- transpose Int_ops x ;; yt <- transpose Int_ops y ;; M_product Int_ops yt xt) /\
  (xy <- M_product Int_ops x y ;; MatModel.trace Int_ops xy) = (yx <- M_product Int_ops y x ;; MatModel.trace Int_ops yx) /\
  M_product Int_ops x y <> M_product Int_ops y x.
Proof. vm_compute. repeat split. by []. Qed.
Example C98_ex_field :
  let x := PropsMatAlg.MQ 2%N 2%N [:: 2; 1; 5; 3]%Z in let y := PropsMatAlg.MQ 2%N 2%N [:: 4; 7; 1; 3]%Z in
  (xy <- M_product PropsMatAlg.Q_ops x y ;; inverse PropsMatAlg.Q_ops xy) =
    (u <- inverse PropsMatAlg.Q_ops x ;; v <- inverse PropsMatAlg.Q_ops y ;; M_product PropsMatAlg.Q_ops v u) /\
  (u <- inverse PropsMatAlg.Q_ops y ;; inverse PropsMatAlg.Q_ops u) = Ok y /\
  (u <- inverse PropsMatAlg.Q_ops y ;; MatModel.determinant PropsMatAlg.Q_ops u) = Ok (1 # 5)%Q /\
  (let z := PropsMatAlg.MQ 2%N 3%N [:: 1; 2; 3; 2; 4; 7]%Z in
   rref PropsMatAlg.Q_ops z = Ok (PropsMatAlg.MQ 2%N 3%N [:: 1; 2; 0; 0; 0; 1]%Z) /\
   (xz <- M_product PropsMatAlg.Q_ops x z ;; rref PropsMatAlg.Q_ops xz) = rref PropsMatAlg.Q_ops z).
Proof. by vm_compute. Qed.
Print Assumptions C98_exact_ring.
Print Assumptions C98_exact_field.
Print Assumptions C98_exact_Int.
Print Assumptions C98_assoc.
Print Assumptions C98_distr.
Print Assumptions C98_distr_right.
Print Assumptions C98_identity.
Print Assumptions C98_group.
Print Assumptions C98_scale.
Print Assumptions C98_transpose.
Print Assumptions C98_trace.
Print Assumptions C98_trace_sum.
Print Assumptions C98_cofactor.
Print Assumptions C98_determinant.
Print Assumptions C98_inverse.
Print Assumptions C98_inverse_product.
Print Assumptions C98_solve.
Print Assumptions C98_rref_rows.
Print Assumptions C98_rref_idempotent.
Print Assumptions C98_rref_product.
Print Assumptions C98_rref_identity.
Print Assumptions C98_rref_rank.
Print Assumptions C98_int.
