(** The machine arithmetic behind Mat's indices: size_t has 64 bits and wraps
    around, int has 32 bits -- src/Mat.hpp. [MatModel] computes the same indices
    with natural numbers; the theorems C100 say when the two agree. *)
From Verif Require Import Base IntModel ElemModel MatModel.

(** a size_t after unsigned arithmetic *)
Definition size (z : Z) : Z := z mod 2 ^ 64.
(** new T[rows * cols] -- src/Mat.hpp:108-128: the number of elements *)
Definition allocated (r c : Z) : Z := size (r * c).
(** offset(i, j) = i * cols + j -- src/Mat.hpp:91-93 *)
Definition offset64 (c i j : Z) : Z := size (size (i * c) + j).
(** conversion of a size_t to int (two's complement, as every compiler does it; C++20
    requires it) and back *)
Definition to_int (z : Z) : Z := let w := z mod 2 ^ 32 in if w <? 2 ^ 31 then w else w - 2 ^ 32.
(** ii = (m >= i) ? m + 1 : m in first_minor, used as a size_t argument of
    offset -- src/Mat.hpp:282-287 *)
Definition minor_index (i m : Z) : Z := size (to_int (if i <=? m then size (m + 1) else m)).

(** A matrix with such dimensions; data is the allocated array. *)
Record Mat64 (T : Type) := mkMat64 { rows64 : Z; cols64 : Z; data64 : list (option T) }.
Arguments mkMat64 {T} _ _ _.
Arguments rows64 {T} _.
Arguments cols64 {T} _.
Arguments data64 {T} _.
Section Mat64.
Context {T : Type} (E : ops T).
(** Mat(rows, cols) -- src/Mat.hpp:113-116 *)
Definition Mat64_new (r c : Z) : Mat64 T := mkMat64 r c (repeat (fresh E) (Z.to_nat (allocated r c))).
(** entry(i, j) -- src/Mat.hpp:36 *)
Definition entry64 (m : Mat64 T) (i j : Z) : res T := read (data64 m) (Z.to_nat (offset64 (cols64 m) i j)).
Definition set_entry64 (m : Mat64 T) (i j : Z) (x : T) : outcome (Mat64 T) :=
  let k := Z.to_nat (offset64 (cols64 m) i j) in
  if (k <? length (data64 m))%nat then done (mkMat64 (rows64 m) (cols64 m) (replace (data64 m) k (Some x)))
  else (m, UB).
(** setEntries(val) -- src/Mat.hpp:144-149; Mat(rows, cols, val) -- 118-122 *)
Definition set_all64 (m : Mat64 T) (v : T) : outcome (Mat64 T) :=
  for_ (Z.to_nat (rows64 m)) 0 (fun i => for_ (Z.to_nat (cols64 m)) 0 (fun j m => set_entry64 m (Z.of_nat i) (Z.of_nat j) v)) m.
Definition Mat64_val (r c : Z) (v : T) : res (Mat64 T) := final (set_all64 (Mat64_new r c) v).
(** first_minor -- src/Mat.hpp:279-291 *)
Definition first_minor64 (x : Mat64 T) (i j : Z) : res (Mat64 T) :=
  let r := Mat64_new (size (rows64 x - 1)) (size (cols64 x - 1)) in
  final (for_ (Z.to_nat (rows64 r)) 0 (fun m => for_ (Z.to_nat (cols64 r)) 0 (fun n r =>
    eval r (entry64 x (minor_index i (Z.of_nat m)) (minor_index j (Z.of_nat n))) (fun v => set_entry64 r (Z.of_nat m) (Z.of_nat n) v))) r).
End Mat64.
