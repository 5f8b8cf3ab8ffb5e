(** Property theorems C100: size_t and int arithmetic in Mat. *)
From Verif Require Import Base IntModel ElemModel ElemSpec VecModel MatModel MatSpec SizeModel SizeProofs.
From Verif Require PropsMat.

(** every entry lies inside the array that the constructors allocate, iff the
    number of entries is a size_t *)
Theorem C100_in_bounds : forall r c, 0 <= r < 2 ^ 64 -> 0 <= c < 2 ^ 64 ->
  ((forall i j, 0 <= i < r -> 0 <= j < c -> offset64 c i j < allocated r c) <-> r * c < 2 ^ 64).
Proof. exact in_bounds_iff. Qed.
(** and then no two entries share an element *)
Theorem C100_distinct : forall r c i j i' j', 0 <= i < r -> 0 <= j < c -> 0 <= i' < r -> 0 <= j' < c -> r * c < 2 ^ 64 ->
  offset64 c i j = offset64 c i' j' -> i = i' /\ j = j'.
Proof. exact offset64_inj. Qed.
(** for such matrices the natural numbers of the model give what the machine does *)
Theorem C100_faithful : forall T (E : ops T) r c, Z.of_nat r * Z.of_nat c < 2 ^ 64 ->
  Mat64_new E (Z.of_nat r) (Z.of_nat c) = as64 (Mat_new E r c) /\
  (forall v, exists m, Mat_val E r c v = Ok m /\ Mat64_val E (Z.of_nat r) (Z.of_nat c) v = Ok (as64 m)) /\
  (forall (m : Mat T) i j, dims m r c -> (i < r)%nat -> (j < c)%nat -> entry64 (as64 m) (Z.of_nat i) (Z.of_nat j) = entry m i j /\
     forall x, set_entry64 (as64 m) (Z.of_nat i) (Z.of_nat j) x = (as64 (fst (set_entry m i j x)), snd (set_entry m i j x))).
Proof. exact faithful. Qed.
(** Mat(r, c, v) is a matrix full of v for all r and c: false, if r * c wraps around
    it writes outside the array *)
Theorem C100_overflow_refuted : forall T (E : ops T) r c v, 0 <= r < 2 ^ 64 -> 0 <= c < 2 ^ 64 -> 2 ^ 64 <= r * c -> Mat64_val E r c v = UB.
Proof. exact @val64_UB. Qed.
(** 2^32 x 2^32: the array has no elements at all *)
Theorem C100_witness_refuted : allocated (2 ^ 32) (2 ^ 32) = 0 /\ offset64 (2 ^ 32) 0 0 = 0 /\
  forall T (E : ops T) v, Mat64_val E (2 ^ 32) (2 ^ 32) v = UB.
Proof. split; [reflexivity|]. split; [reflexivity|]. intros. apply val64_UB; lia. Qed.
(** an index outside the matrix may come back inside *)
Theorem C100_outside_refuted : exists m : Mat Z, exists i, rows m = 2%nat /\ cols m = 2%nat /\ 2 <= i < 2 ^ 64 /\
  entry64 (as64 m) i 1 = entry m 0 1 /\ entry m 0 1 = Ok 6.
Proof. exists (PropsMat.MZ 2 2 [5; 6; 7; 8]), (2 ^ 63). vm_compute. repeat split; discriminate. Qed.
(** inverse() works on an n x 2n matrix: if the n x n one has at most 2^63 bytes its size does not wrap *)
Theorem C100_augmented : forall n, 0 <= n -> n * n <= 2 ^ 63 -> n * (2 * n) < 2 ^ 64.
Proof. intros n H L. assert (n <= 3037000499) by nia. nia. Qed.
(** first_minor keeps indices in an int: exact up to 2^31 rows and columns *)
Theorem C100_minor : forall T (E : ops T) (x : Mat T) r c i j, dims x r c -> (i < r)%nat -> (j < c)%nat ->
  Z.of_nat r <= 2 ^ 31 -> Z.of_nat c <= 2 ^ 31 ->
  first_minor64 E (as64 x) (Z.of_nat i) (Z.of_nat j) = (m <- first_minor E x i j ;; Ok (as64 m)).
Proof. intros T E x r c i j (<- & <- & L) Hi Hj Hr Hc. apply minor_nat; try assumption; lia. Qed.
(** and with more rows it reads outside the array *)
Theorem C100_minor_refuted : forall T (E : ops T) (x : Mat64 T) i j, 2 ^ 31 < rows64 x -> 2 <= cols64 x <= 2 ^ 31 -> rows64 x * cols64 x <= 2 ^ 63 ->
  length (data64 x) = Z.to_nat (rows64 x * cols64 x) -> 0 <= i < 2 ^ 31 -> 0 <= j < cols64 x -> first_minor64 E x i j = UB.
Proof. intros T E x i j H1 [H2 H3] H4 H5 H6 H7. apply minor_UB; assumption. Qed.
(** a matrix with one row and no columns has a minor with 2^64 - 1 columns *)
Theorem C100_minor_empty : forall T (E : ops T), exists m, first_minor64 E (mkMat64 1 0 []) 0 0 = Ok m /\ rows64 m = 0 /\ cols64 m = 2 ^ 64 - 1.
Proof. exact minor_empty. Qed.
Example C100_ex : offset64 3 2 1 = 7 /\ allocated 3 3 = 9 /\ allocated (2 ^ 63) 3 = 2 ^ 63 /\
  minor_index 1 0 = 0 /\ minor_index 1 1 = 2 /\ minor_index 0 (2 ^ 31 - 1) = 2 ^ 64 - 2 ^ 31 /\
  entry64 (as64 (PropsMat.MZ 2 2 [5; 6; 7; 8])) 1 0 = Ok 7 /\
  first_minor64 int32_ops (as64 (PropsMat.MZ 3 3 [1; 2; 3; 4; 5; 6; 7; 8; 9])) 0 1 = Ok (as64 (PropsMat.MZ 2 2 [4; 6; 7; 9])) /\
  Mat64_val int32_ops 2 3 4 = Ok (as64 (PropsMat.MZ 2 3 [4; 4; 4; 4; 4; 4])).
Proof. vm_compute. repeat split. Qed.
Print Assumptions C100_in_bounds.
Print Assumptions C100_distinct.
Print Assumptions C100_faithful.
Print Assumptions C100_overflow_refuted.
Print Assumptions C100_witness_refuted.
Print Assumptions C100_outside_refuted.
Print Assumptions C100_augmented.
Print Assumptions C100_minor.
Print Assumptions C100_minor_refuted.
Print Assumptions C100_minor_empty.
