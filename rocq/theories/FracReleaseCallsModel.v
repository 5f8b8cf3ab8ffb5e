(** Programs of Frac calls when assertions are compiled out and every exception is caught
    (finstr of FracHistory.v and the comparisons of CatchModel.v; src/Frac.hpp:20-79,
    src/Frac.cpp:100-223). The functions are those of FracReleaseModel.v. There += and -= of an
    Int leave the numerator alone when they throw; here it is what += and -= of Int leave
    (ReleaseCallsModel.v), whatever the Ints. *)
From Verif Require Import Base IntModel IOModel FracModel PropsFrac FracHistory CatchModel
  ReleaseModel FracReleaseModel PropsFracRelease ReleaseCallsModel.

(** src/Frac.cpp:193-201 *)
Definition FI_sum_left (asg : Int -> option Int -> Int * res unit) (x : Frac) (a : Int) : fst_res :=
  match op_mul_nd (bot x) a with
  | Ok p => fthen (put_top x (asg (top x) (Some p))) normalize_nd
  | m => fail_with x m
  end.
Definition FIasg_left (o : fop) : Frac -> Int -> fst_res :=
  match o with
  | FAdd => FI_sum_left add_assign_left
  | FSub => FI_sum_left sub_assign_left
  | _ => FIasg_nd o
  end.

Definition nexec (st : nat -> Frac) (s : stmt) : res ((nat -> Frac) * event) :=
  match s with
  | Do (HDefault d) => try_new st d Frac_default
  | Do (HOfInt d a) => try_new st d (Frac_of_Int a)
  | Do (HMake d a b) => try_new st d (Frac_make_nd a b)
  | Do (HString d t) => try_new st d (Frac_of_string_nd t)
  | Do (HCopy d a) => try_new st d (Ok (st a))
  | Do (HRecip d a) => try_new st d (reciprocal_nd (st a))
  | Do (HBin o d a b) => try_new st d (Fbin_nd o (st a) (st b))
  | Do (HIntL o d a b) => try_new st d (IFbin_nd o a (st b))
  | Do (HIntR o d a b) => try_new st d (FIbin_nd o (st a) b)
  | Do (HPow d a n) => try_new st d (F_pow_nd (st a) n)
  | Do (HAssign o d b) => try_in_place st d (Fasg_nd o (st d) (if Nat.eqb d b then None else Some (st b)))
  | Do (HIAssign o d b) => try_in_place st d (FIasg_left o (st d) b)
  | Do (HPowAssign d n) => try_in_place st d (F_pow_assign_nd (st d) n)
  | Cmp c a b => r <- Fcmp_nd c (st a) (st b) ;; Ok (st, Said r)
  end.
Fixpoint nrun (st : nat -> Frac) (p : list stmt) : res ((nat -> Frac) * list event) :=
  match p with
  | [] => Ok (st, [])
  | s :: p' => a <- nexec st s ;; b <- nrun (fst a) p' ;; Ok (fst b, snd a :: snd b)
  end.
