(** C134: what the compound assignments of Vec, Mat, Term and Poly leave in the object on
    their left when memory runs out -- src/Vec.hpp:167-193, src/Mat.hpp:171-198, 214-235,
    src/Poly.hpp:65, 92-101, 180-189, 241-254, 268-289. *)
From Coq Require Import QArith Ascii.
From Verif Require Import Base IntModel IntSpec IOModel FracModel FracSpec ElemModel VecModel MatModel PolyModel PolySpec LeaveModel LeaveSpec
  IntBasics AllocModel IntAllocModel IntAllocSpec FracAllocModel FracAllocSpec ContAllocModel ContAllocSpec ContAllocProofs.
Import ListNotations.
Local Open Scope list_scope.
Local Open Scope Z_scope.

(** ** Vec<Int>: x += y, x -= y (y may be x, [None]), x *= v, x /= v, x *= x[k], x /= x[k] *)
Theorem C134_int_sum fails half x y : Forall canonical x -> Forall canonical (rd x y) ->
  cends (vec_assign_m fails (add_assign_m fails half) y) (V_add_assign Int_ops x y)
    (fun z => z = x \/ partly (int_finished Z.add) (int_sum_between half false) x (rd x y) z) x.
Proof. exact (int_sum_vec fails half false x y). Qed.
Print Assumptions C134_int_sum.
Theorem C134_int_difference fails half x y : Forall canonical x -> Forall canonical (rd x y) ->
  cends (vec_assign_m fails (sub_assign_m fails half) y) (V_sub_assign Int_ops x y)
    (fun z => z = x \/ partly (int_finished Z.sub) (int_sum_between half true) x (rd x y) z) x.
Proof. exact (int_sum_vec fails half true x y). Qed.
Print Assumptions C134_int_difference.
Theorem C134_int_scaled fails half x v k : Forall wf x ->
  (wf v -> cends (scale_assign_m (mul_assign_m fails half) (Val v)) (V_mul_assign Int_ops x (Val v))
     (partly (int_finished Z.mul) (int_product_between half) x (repeat v (length x))) x) /\
  (nth_error x k = Some v -> cends (scale_assign_m (mul_assign_m fails half) (Elem k)) (V_mul_assign Int_ops x (Elem k))
     (partly_own (int_finished Z.mul) (int_product_between half) x k v) x).
Proof. intros H. split; [exact (int_product_val fails half x v H)|exact (int_product_own fails half x k v H)]. Qed.
Print Assumptions C134_int_scaled.
Theorem C134_int_divided fails x v k : Forall wf x ->
  (wf v -> cends (scale_assign_m (div_assign_m fails) (Val v)) (V_div_assign Int_ops x (Val v))
     (partly (int_finished Z.quot) left_by_division x (repeat v (length x))) x) /\
  (nth_error x k = Some v -> cends (scale_assign_m (div_assign_m fails) (Elem k)) (V_div_assign Int_ops x (Elem k))
     (partly_own (int_finished Z.quot) left_by_division x k v) x).
Proof. intros H. split; [exact (int_quotient_val fails x v H)|exact (int_quotient_own fails x k v H)]. Qed.
Print Assumptions C134_int_divided.

(** ** Vec<Frac>; divisions by zero are in C111 *)
Theorem C134_frac_sum fails half x y : Forall reduced x -> Forall reduced (rd x y) ->
  cends (vec_assign_m fails (Fm_addsub fails half op_add) y) (vec_assign' F_add_assign x y)
    (fun z => z = x \/ partly (frac_finished Qplus) (frac_between half (fun a b c d => a * d + c * b) (fun _ b _ d => b * d)) x (rd x y) z) x.
Proof. exact (frac_sum_vec fails half false x y). Qed.
Print Assumptions C134_frac_sum.
Theorem C134_frac_difference fails half x y : Forall reduced x -> Forall reduced (rd x y) ->
  cends (vec_assign_m fails (Fm_addsub fails half op_sub) y) (vec_assign' F_sub_assign x y)
    (fun z => z = x \/ partly (frac_finished Qminus) (frac_between half (fun a b c d => a * d - c * b) (fun _ b _ d => b * d)) x (rd x y) z) x.
Proof. exact (frac_sum_vec fails half true x y). Qed.
Print Assumptions C134_frac_difference.
Theorem C134_frac_scaled fails half x v k : let btw := frac_between half (fun a _ c _ => a * c) (fun _ b _ d => b * d) in Forall reduced x ->
  (reduced v -> cends (scale_assign_m (Fm_mul fails half) (Val v)) (scale_assign' F_mul_assign x (Val v))
     (partly (frac_finished Qmult) btw x (repeat v (length x))) x) /\
  (nth_error x k = Some v -> cends (scale_assign_m (Fm_mul fails half) (Elem k)) (scale_assign' F_mul_assign x (Elem k))
     (partly_own (frac_finished Qmult) btw x k v) x).
Proof. intros btw H. split; [exact (frac_product_val fails half x v H)|exact (frac_product_own fails half x k v H)]. Qed.
Print Assumptions C134_frac_scaled.
Theorem C134_frac_divided fails half x v k : let btw := frac_between half (fun a _ _ d => a * d) (fun _ b c _ => b * c) in Forall reduced x -> ~ (Fval v == 0)%Q ->
  (reduced v -> cends (scale_assign_m (Fm_div fails half) (Val v)) (scale_assign' F_div_assign x (Val v))
     (partly (frac_finished Qdiv) btw x (repeat v (length x))) x) /\
  (nth_error x k = Some v -> cends (scale_assign_m (Fm_div fails half) (Elem k)) (scale_assign' F_div_assign x (Elem k))
     (partly_own (frac_finished Qdiv) btw x k v) x).
Proof. intros btw H N. split; [intros R; exact (frac_quotient_val fails half x v H R N)|intros E; exact (frac_quotient_own fails half x k v H E N)]. Qed.
Print Assumptions C134_frac_divided.

(** ** Mat: an r x c matrix is worked through as the vector of its entries, row by row, with
    the same requests, for every element type and operator *)
Theorem C134_rows fails {T} r c (opm : option T -> cstep T unit) l y s n : length l = (r * c)%nat -> (forall l', y = Some l' -> length l' = (r * c)%nat) -> scalar_in c s ->
  mat_assign_m fails opm (option_map (mat r c) y) (mat r c l) n = (let '(z, n, e) := vec_assign_m fails opm y l n in (mat r c z, n, e)) /\
  mat_scale_assign_m opm s (mat r c l) n = (let '(z, n, e) := scale_assign_m opm (flat_scalar c s) l n in (mat r c z, n, e)).
Proof. intros L Ly Hs. split; [exact (mat_vec_flat fails r c opm l y n L Ly)|exact (mat_scale_flat_m r c opm l s n L Hs)]. Qed.
Print Assumptions C134_rows.
(** Nothing is lost: as many elements as before *)
Theorem C134_length {T} (f b : T -> T -> T -> Prop) x ys z : partly f b x ys z -> length z = length x.
Proof. exact (partly_length f b x ys z). Qed.
Print Assumptions C134_length.

(** ** Terms: t *= f, t *= y (y may be t itself, [None]), negate *)
Theorem C134_factor fails half t f : map_ok (factors t) -> factor_ok f ->
  cends (appendFactor_m fails half f false) (term_mul_assign_factor t f) (left_by_factor half t f) t.
Proof. intros Ht Hf. apply (factor_ends fails half t f false Ht Hf). discriminate. Qed.
Print Assumptions C134_factor.
Theorem C134_product fails half t o : term_ok t -> term_ok (rd t o) ->
  cends (term_mul_assign_m fails half o) (term_mul_assign t o) (left_by_product half t (rd t o)) t.
Proof. exact (product_ends fails half t o). Qed.
Print Assumptions C134_product.
Theorem C134_negate fails half t : term_ok t -> cends (negate_term_m fails half) (negate_term t)
  (fun z => factors z = factors t /\ (z = t \/ left_top half (coeff t) (- val (top (coeff t))) (coeff z))) t.
Proof. exact (negate_ends fails half t). Qed.
Print Assumptions C134_negate.

(** ** Polynomials: appendTerm, p += y, p -= y, appendTerms *)
Theorem C134_append fails half p x : poly_ok p -> term_ok x -> cends (appendTerm_m fails half x) (appendTerm p x) (left_by_append half p x) p.
Proof. exact (append_ends fails half p x). Qed.
Print Assumptions C134_append.
Theorem C134_poly_sum fails half p y : poly_ok p -> factor_ok y -> exists x, single 1 y x /\
  cends (poly_add_assign_m fails half y) (poly_add_assign p y) (left_by_append half p x) p.
Proof. exact (poly_sum_ends fails half p y). Qed.
Print Assumptions C134_poly_sum.
Theorem C134_poly_difference fails half p y : poly_ok p -> factor_ok y -> exists x, single (-1) y x /\
  cends (poly_sub_assign_m fails half y) (poly_sub_assign p y) (left_by_append half p x) p.
Proof. exact (poly_difference_ends fails half p y). Qed.
Print Assumptions C134_poly_difference.
(* appendTerms keeps everything *)
Theorem C134_merge fails p l : cends (appendTerms_m fails l) (eval p (appendTerms p l) done) (fun z => z = p) p.
Proof. exact (merge_ends fails p l). Qed.
Print Assumptions C134_merge.

(** ** The strong guarantee is false of all the others *)
Definition at_request (k n : nat) : bool := (n =? k)%nat.
Definition i (b : Z) : Int := mkInt [b] false.
Definition q (a b : Z) : Frac := mkFrac (i a) (i b).
Definition X (k : Z) : chars * Factor := (["x"%char], mkFactor ["x"%char] (i k)).
Definition Y (k : Z) : chars * Factor := (["y"%char], mkFactor ["y"%char] (i k)).
Definition t1 := mkTerm (q 2 3) [X 1].
Definition t2 := mkTerm (q 5 7) [X 2; Y 1].
Definition t3 := mkTerm (q 1 2) [X 1].
(* (1, 2) += (3, 4), the third request failing: (4, 2) *)
Example C134_example_sum :
  let f := at_request 2 in
  vec_assign_m f (add_assign_m f half_gnu) (Some [i 3; i 4]) [i 1; i 2] 0%nat = ([i 4; i 2], 3%nat, NoMem).
Proof. vm_compute. reflexivity. Qed.
(* x *= x[0] of x = (3, 1, 2): (9, 9, 2) *)
Example C134_example_own :
  let f := at_request 6 in
  scale_assign_m (mul_assign_m f half_gnu) (Elem 0%nat) [i 3; i 1; i 2] 0%nat = ([i 9; i 9; i 2], 7%nat, NoMem).
Proof. vm_compute. reflexivity. Qed.
(* (1/3, 2) *= 1/2: 2/2 is left in the second place, not in lowest terms *)
Example C134_example_frac :
  let f := at_request 25 in
  scale_assign_m (Fm_mul f half_gnu) (Val (q 1 2)) [q 1 3; q 2 1] 0%nat = ([q 1 6; q 2 2], 26%nat, NoMem).
Proof. vm_compute. reflexivity. Qed.
(* the matrix with rows (1, 2), (3, 4), added to itself: (2, 4), (3, 4) *)
Example C134_example_rows :
  let f := at_request 5 in
  mat_assign_m f (add_assign_m f half_gnu) None (mat 2 2 [i 1; i 2; i 3; i 4]) 0%nat = (mat 2 2 [i 2; i 4; i 3; i 4], 6%nat, NoMem).
Proof. vm_compute. reflexivity. Qed.
(* 2/3 x *= 5/7 x^2 y: 2/3 x^3, then 2/3 x^3 y, then 10/3 x^3 y *)
Example C134_example_product :
  map (fun k => term_mul_assign_m (at_request k) half_gnu (Some t2) t1 0%nat) [1; 2; 4; 99]%nat =
    [(mkTerm (q 2 3) [X 3], 2%nat, NoMem); (mkTerm (q 2 3) [X 3; Y 1], 3%nat, NoMem);
     (mkTerm (q 10 3) [X 3; Y 1], 5%nat, NoMem); (mkTerm (q 10 21) [X 3; Y 1], 21%nat, Fin (Ok tt))].
Proof. vm_compute. reflexivity. Qed.
(* t *= t with t = 5/7 x^2 y: 5/7 x^4 y *)
Example C134_example_square : term_mul_assign_m (at_request 1) half_gnu None t2 0%nat = (mkTerm (q 5 7) [X 4; Y 1], 2%nat, NoMem).
Proof. vm_compute. reflexivity. Qed.
(* 1/2 x appended to 2/3 x: 7/3 x *)
Example C134_example_append : appendTerm_m (at_request 2) half_gnu t3 [t1] 0%nat = ([mkTerm (q 7 3) [X 1]], 3%nat, NoMem).
Proof. vm_compute. reflexivity. Qed.
(* a term of its own is inserted or not *)
Example C134_example_insert :
  appendTerm_m (at_request 0) half_gnu t1 [mkTerm (q 5 7) [Y 1]] 0%nat = ([mkTerm (q 5 7) [Y 1]], 1%nat, NoMem) /\
  (let '(z, _, e) := appendTerm_m (at_request 99) half_gnu t1 [mkTerm (q 5 7) [Y 1]] 0%nat in (length z, e)) = (2%nat, Fin (Ok tt)).
Proof. vm_compute. split; reflexivity. Qed.
(* p += x for p = 2/3 x *)
Example C134_example_poly_sum : poly_add_assign_m (at_request 1) half_gnu (snd (X 1)) [t1] 0%nat = ([t1], 2%nat, NoMem).
Proof. vm_compute. reflexivity. Qed.

(** Neither what was there nor what was asked for: the product of two terms *)
Theorem C134_kept_refuted : exists fails half t y z n, term_ok t /\ term_ok y /\
  term_mul_assign_m fails half (Some y) t 0%nat = (z, n, NoMem) /\ z <> t /\ (forall w, term_mul_assign t (Some y) = (w, Ok tt) -> z <> w).
Proof.
  assert (W : forall b, canonicalb (i b) = true -> canonical (i b)) by (intros b; apply canonicalb_spec).
  exists (at_request 1), half_gnu, t1, t2. do 2 eexists.
  split; [|split; [|split; [vm_compute; reflexivity|split; [discriminate|intros w; vm_compute; intros [= <-]; discriminate]]]].
  all: split; [repeat split; try (apply W); try (vm_compute; reflexivity)|].
  all: split; [|repeat (apply Forall_cons; [split; [reflexivity|apply W; reflexivity]|]); apply Forall_nil].
  all: cbn; repeat constructor.
Qed.
Print Assumptions C134_kept_refuted.
