(** Model of the remaining helpers: the printer of a deque of bins
    (src/Int.cpp:3-14), Int::shift, set_bin_from_back and get_bin_from_back
    (src/Int.hpp:86-100), max and testOutput (src/common.hpp:58-72). *)
From Coq Require Import Ascii String.
From Verif Require Import Base IntModel IOModel.
Local Open Scope list_scope.

(** operator<<(std::ostream&, const std::deque<int32_t>&) -- src/Int.cpp:4-14.
    [i < --deque.end()] : i does not point to the last element. *)
Definition DEQUE_OPEN : chars := list_ascii_of_string "Deque[".
Fixpoint deque_loop (o : ostream) (l : list Z) : ostream :=
  match l with
  | [] => o
  | b :: l' =>
      let o := put o (dec_int32 b) in
      deque_loop (match l' with [] => o | _ => put o [","%char; " "%char] end) l'
  end.
Definition deque_print (o : ostream) (l : list Z) : ostream :=
  put (deque_loop (put o DEQUE_OPEN) l) ["]"%char].

(** Int::shift -- src/Int.hpp:86-89: push_front(0), [amount] times *)
Fixpoint shift (x : Int) (amount : nat) : Int :=
  match amount with
  | O => x
  | S k => shift (mkInt (0 :: bins x) (negative x)) k
  end.

(** bins.size() - 1 - i, computed in size_t (64 bits) -- src/Int.hpp:91-100 *)
Definition index_from_back (x : Int) (i : Z) : Z := (Z.of_nat (size x) - 1 - i) mod 2 ^ 64.
(** deque::operator[] does not check its index: writing out of range is undefined. *)
Fixpoint write_nth (l : list Z) (i : nat) (v : Z) : res (list Z) :=
  match l, i with
  | [], _ => UB
  | _ :: l', O => Ok (v :: l')
  | b :: l', S i' => r <- write_nth l' i' v ;; Ok (b :: r)
  end.
(** Int::set_bin_from_back -- src/Int.hpp:91-98; a huge index is compared before
    it becomes a [nat]. *)
Definition set_bin_from_back (x : Int) (i v : Z) : res Int :=
  let k := index_from_back x i in
  if k <? Z.of_nat (size x) then bs <- write_nth (bins x) (Z.to_nat k) v ;; Ok (mkInt bs (negative x)) else UB.
(** Int::get_bin_from_back -- src/Int.hpp:100; deque::at throws std::out_of_range. *)
Definition get_bin_from_back (x : Int) (i : Z) : res Z :=
  let k := index_from_back x i in
  if k <? Z.of_nat (size x) then at_ (bins x) (Z.to_nat k) else Throw OutOfRange.

(** max -- src/common.hpp:58-60 *)
Definition max_int32 (a b : Z) : Z := if a >? b then a else b.

(** std::endl: put('\n'), which is unformatted and does not touch the width. *)
Definition endl (o : ostream) : ostream := mkOut (obuf o ++ [ascii_of_nat 10]) (owidth o) (ofill o).
(** ss.str().compare(expected) == 0 *)
Definition text_eqb (a b : chars) : bool := if list_eq_dec ascii_dec a b then true else false.
(** testOutput -- src/common.hpp:64-72; [pr] is operator<< of the type T, [cout] the
    state of std::cout. *)
Definition testOutput {T} (pr : ostream -> T -> res ostream) (cout : ostream) (y : T) (expected : chars) : res (bool * ostream) :=
  ss <- pr fresh_out y ;;
  let result := text_eqb (obuf ss) expected in
  Ok (result,
      if result then cout
      else endl (put (put (put (put cout (list_ascii_of_string "FAILED: ")) (obuf ss)) (list_ascii_of_string " : ")) expected)).
