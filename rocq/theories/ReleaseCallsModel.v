(** Programs of Int calls compiled without assertions, in which every exception is caught and
    the program goes on. Each call of IntCalls.v runs in its own try block: a function that
    returns a new Int leaves the variables alone when it throws, and an operator in place
    leaves its object as the exception found it. For `+=` and `-=` what is left behind is
    modelled here; the other functions are those of ReleaseModel.v. *)
From Verif Require Import Base IntModel IOModel PropsInt IntHistory IntCalls ReleaseModel PropsRelease.
Local Open Scope list_scope.
Local Open Scope Z_scope.

(** The first loop of Int::subtract, with the bins *this has when it ends --
    src/Int.cpp:435-450; the bins before position i have been written. *)
Fixpoint sub_left (bs xs : list Z) (borrow : Z) {struct xs} : list Z * res unit :=
  match xs with
  | [] => match sub_borrow bs borrow with Ok bs' => (bs', Ok tt) | m => (bs, ended m) end
  | x :: xs' =>
      match bs with
      | [] => ([], Throw OutOfRange)
      | b :: bs' =>
          match (t <- i32 (b - borrow) ;; i32 (t - x)) with
          | Ok diff =>
              if diff <? 0 then
                match i32 (diff + BIN_LIMIT) with
                | Ok d => let '(l, m) := sub_left bs' xs' 1 in (d :: l, m)
                | m => (bs, ended m)
                end
              else let '(l, m) := sub_left bs' xs' 0 in (diff :: l, m)
          | m => (bs, ended m)
          end
      end
  end.
(** src/Int.cpp:420-463 *)
Definition subtract_left (this x : Int) : Int * res unit :=
  match sub_left (bins this) (bins x) 0 with
  | (bs, Ok _) => (mkInt (clean_list bs) (negative this), Ok tt)
  | (bs, m) => (mkInt bs (negative this), m)
  end.
(** The next statement on an object, if the last one returned *)
Definition then_ (p : Int * res unit) (f : Int -> Int * res unit) : Int * res unit :=
  match p with (l, Ok _) => f l | _ => p end.
Definition negate_left (this : Int) : Int * res unit := in_place this (negate this).

(** src/Int.cpp:200-239 *)
Fixpoint addsub_left (fuel : nat) (is_sub : bool) (this : Int) (other : option Int) : Int * res unit :=
  match fuel with
  | O => (this, OutOfFuel)
  | S f =>
      let o := rd this other in
      if is_sub then
        if negative this && negative o then
          match op_neg o with
          | Ok tmp => then_ (then_ (negate_left this) (fun t => addsub_left f true t (Some tmp))) negate_left
          | m => (this, ended m)
          end
        else if negative this && negb (negative o) then
          then_ (then_ (negate_left this) (fun t => addsub_left f false t other)) negate_left
        else if negb (negative this) && negative o then
          match op_neg o with
          | Ok no => addsub_left f false this (Some no)
          | m => (this, ended m)
          end
        else
          match op_gt this o with
          | Ok true => subtract_left this o
          | Ok false => in_place this (r <- subtract_nd o this ;; negate r)
          | m => (this, ended m)
          end
      else
        if negative this && negative o then
          match op_neg o with
          | Ok tmp => then_ (then_ (negate_left this) (fun t => addsub_left f false t (Some tmp))) negate_left
          | m => (this, ended m)
          end
        else if negative this && negb (negative o) then
          then_ (then_ (negate_left this) (fun t => addsub_left f true t other)) negate_left
        else if negb (negative this) && negative o then
          match op_neg o with
          | Ok no => addsub_left f true this (Some no)
          | m => (this, ended m)
          end
        else in_place this (add_ this o)
  end.
Definition add_assign_left (this : Int) (other : option Int) : Int * res unit := addsub_left 3 false this other.
Definition sub_assign_left (this : Int) (other : option Int) : Int * res unit := addsub_left 3 true this other.

Definition assign_left (o : aop) (x : Int) (other : option Int) : Int * res unit :=
  match o with
  | Add => add_assign_left x other
  | Sub => sub_assign_left x other
  | _ => assign_nd o x other
  end.

(** The object a call leaves in its destination and how the call ended *)
Definition result_nd (st : nat -> Int) (c : call) : Int * res unit :=
  match c with
  | Scale d p => times_power_ten_nd (st d) p
  | Binary o d a b => in_place (st d) (binary_nd o (st a) (st b))
  | Assign o d b => assign_left o (st d) (if Nat.eqb d b then None else Some (st b))
  | _ => in_place (st (dest c)) (result st c)
  end.
(** What a call shows: it finished, or an exception was caught. *)
Inductive ending := Finished | Caught (e : exn).
Definition attempt (st : nat -> Int) (c : call) : res ((nat -> Int) * ending) :=
  let '(l, m) := result_nd st c in
  match m with
  | Ok _ => Ok (upd st (dest c) l, Finished)
  | Throw e => Ok (upd st (dest c) l, Caught e)
  | Abort => Abort
  | UB => UB
  | OutOfFuel => OutOfFuel
  end.
Fixpoint attempt_all (st : nat -> Int) (p : list call) : res ((nat -> Int) * list ending) :=
  match p with
  | [] => Ok (st, [])
  | c :: p' => a <- attempt st c ;; b <- attempt_all (fst a) p' ;; Ok (fst b, snd a :: snd b)
  end.
