(** Compound assignments of Int when memory runs out: the object they leave behind if a
    request for memory fails with std::bad_alloc -- src/Int.cpp:200-262, 337-341, 394-463,
    603-643, 675-699.

    The n-th request fails if [fails n]. A request is made by every computation with local
    objects (in whatever part of it memory runs out, they are destroyed and nothing is
    left), and by every operation that can make the deque of *this grow. std::deque
    promises that push_back, push_front and resize have no effect if they fail; a failed
    copy assignment leaves a valid deque of which the standard says nothing: [half old new].
    [half_gnu] is what libstdc++ leaves. Int declares a copy constructor (src/Int.hpp:39),
    so it has no move operations and std::swap copies.
    Simplification: more requests are made than by the code (libstdc++ allocates once
    in 128 bins), so the model has more runs that fail, and none fewer. *)
From Verif Require Import Base IntModel AllocModel.
Local Open Scope list_scope.
Local Open Scope Z_scope.

(** libstdc++, bits/deque.tcc, operator=: the first bins are overwritten, then space for
    the others is reserved; if there are no others, nothing is allocated *)
Definition half_gnu (old new : list Z) : list Z := firstn (length old) new.

Reserved Notation "x <! m ;; k" (at level 61, m at next level, right associativity).
(** *this and the number of requests so far; what is left, and how it ended *)
Definition step (A : Type) : Type := Int -> nat -> Int * nat * ending A.
Definition andnow {A B} (m : step A) (k : A -> step B) : step B := fun s n =>
  match m s n with
  | (s, n, Fin (Ok a)) => k a s n
  | (s, n, Fin m) => (s, n, Fin (_ <- m ;; UB))
  | (s, n, NoMem) => (s, n, NoMem)
  end.
Notation "x <! m ;; k" := (andnow m (fun x => k)).
Definition just {A} (m : res A) : step A := fun s n => (s, n, Fin m).
Definition here : step Int := fun s n => (s, n, Fin (Ok s)).
Definition put (s' : Int) : step unit := fun s n => (s', n, Fin (Ok tt)).

Section Runs.
Context (fails : nat -> bool) (half : list Z -> list Z -> list Z).
Definition may {A} (m : res A) : step A := fun s n => (s, S n, if fails n then NoMem else Fin m).

(** Int::negate -- src/Int.hpp:57 *)
Definition negate_m : step unit := s <! here ;; r <! just (negate s) ;; put r.
(** set_value(0) -- src/Int.cpp:337-341; after clear() there is room in libstdc++ *)
Definition clear_m : step unit := s <! here ;; _ <! put (mkInt [] (negative s)) ;; _ <! may (Ok tt) ;; put (mkInt [0] false).
(** operator=, member by member; std::swap of *this and r *)
Definition assign_m (r : Int) : step unit := fun s n =>
  if fails n then (mkInt (half (bins s) (bins r)) (negative s), S n, NoMem) else (r, S n, Fin (Ok tt)).
Definition swap_m (r : Int) : step unit := _ <! may (Ok tt) ;; _ <! assign_m r ;; may (Ok tt).

(** Int::add -- src/Int.cpp:394-415: the bins before the last push_back, and the carry *)
Fixpoint carry_bins (bs : list Z) (carry : Z) : res (list Z * Z) :=
  match bs with
  | [] => Ok ([], carry)
  | b :: bs' =>
      if carry =? 0 then Ok (bs, 0)
      else sum <- i32 (b + carry) ;;
           rest <- carry_bins bs' (Z.max 0 (Z.quot sum BIN_LIMIT)) ;;
           Ok (Z.rem sum BIN_LIMIT :: fst rest, snd rest)
  end.
Fixpoint sum_bins (bs xs : list Z) (carry : Z) {struct xs} : res (list Z * Z) :=
  match xs with
  | [] => carry_bins bs carry
  | x :: xs' =>
      match bs with
      | [] => Throw OutOfRange
      | b :: bs' =>
          t <- i32 (b + x) ;;
          sum <- i32 (t + carry) ;;
          rest <- sum_bins bs' xs' (Z.max 0 (Z.quot sum BIN_LIMIT)) ;;
          Ok (Z.rem sum BIN_LIMIT :: fst rest, snd rest)
      end
  end.
Definition add_m (x : Int) : step unit :=
  s <! here ;;
  _ <! (if (size s <? size x)%nat then _ <! may (Ok tt) ;; put (mkInt (bins s ++ repeat 0 (size x - size s)) (negative s)) else just (Ok tt)) ;;
  s <! here ;;
  st <! just (sum_bins (bins s) (bins x) 0) ;;
  _ <! put (mkInt (fst st) (negative s)) ;;
  if snd st =? 0 then just (Ok tt) else _ <! may (Ok tt) ;; put (mkInt (fst st ++ [snd st]) (negative s)).
(** Int::subtract -- src/Int.cpp:420-463 *)
Definition subtract_m (x : Int) : step unit :=
  s <! here ;;
  _ <! just (assert_top s) ;;
  _ <! just (assert_top x) ;;
  ge <! may (a1 <- abs_Int s ;; a2 <- abs_Int x ;; op_ge a1 a2) ;;
  _ <! just (assert_ ge) ;;
  bs <! just (sub_loop (bins s) (bins x) 0) ;;
  put (mkInt (clean_list bs) (negative s)).
(** += and -= -- src/Int.cpp:200-239; [None]: the operand is *this *)
Fixpoint addsub_m (fuel : nat) (is_sub : bool) (other : option Int) : step unit :=
  match fuel with
  | O => just OutOfFuel
  | S f =>
      s <! here ;;
      let o := rd s other in
      if negative s && negative o then
        tmp <! may (op_neg o) ;; _ <! negate_m ;; _ <! addsub_m f is_sub (Some tmp) ;; negate_m
      else if negative s && negb (negative o) then
        _ <! negate_m ;; _ <! addsub_m f (negb is_sub) other ;; negate_m
      else if negb (negative s) && negative o then
        no <! may (op_neg o) ;; addsub_m f (negb is_sub) (Some no)
      else if is_sub then
        gt <! just (op_gt s o) ;;
        if gt : bool then subtract_m o
        else r <! may (r <- subtract o s ;; negate r) ;; swap_m r
      else c <! may (Ok o) ;; add_m c
  end.
Definition add_assign_m (other : option Int) : step unit := addsub_m 3 false other.
Definition sub_assign_m (other : option Int) : step unit := addsub_m 3 true other.
(** *=, %=, ^= -- src/Int.cpp:241-246, 252-262: the result is a local object *)
Definition mul_assign_m (other : option Int) : step unit :=
  s <! here ;; r <! may (multiply s (rd s other)) ;; swap_m (mkInt (bins r) (xorb (negative s) (negative (rd s other)))).
Definition mod_assign_m (other : option Int) : step unit := s <! here ;; r <! may (modulo s (rd s other)) ;; swap_m r.
Definition pow_assign_m (other : option Int) : step unit := s <! here ;; r <! may (op_pow s (rd s other)) ;; swap_m r.

(** Int::divide -- src/Int.cpp:603-643, and /= -- 248-250 *)
Definition put_bins (bs : list Z) : step unit := s <! here ;; put (mkInt bs (negative s)).
Fixpoint div_loop_m (k : nat) (x_norm : Int) (r current : Int) : step unit :=
  match k with
  | O => just (Ok tt)
  | S i =>
      s <! here ;;
      _ <! just (assert_ (0 <? size current)%nat) ;;
      _ <! just (assert_ (i <? length (bins s))%nat) ;;
      bi <! just (at_ (bins s) i) ;;
      cb <! just (set_nth (bins current) 0 bi) ;;
      let cur := mkInt cb (negative current) in
      st <! (if cmp_bins x_norm cur <=? 0 then
               qr <! may (quotient_and_remainder cur x_norm r) ;;
               _ <! just (assert_ (negb (fst qr =? 0))) ;;
               bs' <! just (set_nth (bins s) i (fst qr)) ;;
               _ <! put_bins bs' ;;
               may (Ok (snd qr, snd qr))                       (* current = r *)
             else
               bs' <! just (set_nth (bins s) i 0) ;;
               _ <! put_bins (clean_list bs') ;; just (Ok (r, cur))) ;;
      cur2 <! may (Ok (clean_bins (Int_shifted (snd st) 1))) ;;   (* current.shift(1) *)
      div_loop_m i x_norm (fst st) cur2
  end.
Definition divide_m (x : Int) : step unit :=
  s <! here ;;
  z <! just (equals_int32 x 0) ;;
  if z : bool then just (Throw DivideByZero)
  else if cmp_bins s x <? 0 then clear_m
  else
    x_norm <! may (if negative x then op_neg x else Ok x) ;;
    _ <! div_loop_m (size s) x_norm Int_default Int_default ;;
    s <! here ;; put (mkInt (bins s) (xorb (negative s) (negative x))).
Definition div_assign_m (other : option Int) : step unit := s <! here ;; o <! may (Ok (rd s other)) ;; divide_m o.
End Runs.
