(** The insertion operators of Frac, Vec, Mat, Factor, Term and Poly as the sequences of
    insertions they make (src/Frac.cpp:11-14, src/Vec.hpp:114-124, src/Mat.hpp:96-105,
    src/Poly.hpp:31-36, 103-123, 229-239). Their code does not look at the state of the
    stream, so the same insertions are made whatever its formatting flags; PropsPieces
    proves that on a stream with default flags they are the operators of FracModel,
    VecModel, MatModel and PolyModel. Insertion under flags: FlagsModel. *)
From Coq Require Import Ascii String.
From Verif Require Import Base IntModel IOModel FlagsModel FracModel ElemModel VecModel MatModel PolyModel MiscModel.
Local Open Scope list_scope.

(** a string (or one character), an Int, an int, std::endl *)
Inductive piece := Txt (t : chars) | Num (x : Int) | Small (z : Z) | Line.

(** with default flags *)
Definition put_piece (o : ostream) (p : piece) : ostream :=
  match p with
  | Txt t => put o t
  | Num x => Int_print o x
  | Small z => put o (dec_int32 z)
  | Line => mkOut (obuf o ++ [NEWLINE]) (owidth o) (ofill o)
  end.
Definition put_all (o : ostream) (l : list piece) : ostream := fold_left put_piece l o.

(** out << t for a string, as for a char in FlagsModel *)
Definition put_str (fl : flags) (o : ostream) (t : chars) : ostream :=
  let pad := repeat (ofill o) (Z.to_nat (owidth o) - length t) in
  mkOut (obuf o ++ match adjust fl with Left => t ++ pad | _ => pad ++ t end) 0 (ofill o).
Definition ins_piece (fl : flags) (o : ostream) (p : piece) : ostream :=
  match p with
  | Txt t => put_str fl o t
  | Num x => Int_insert fl o x
  | Small z => put_int fl o z
  | Line => mkOut (obuf o ++ [NEWLINE]) (owidth o) (ofill o)
  end.
Definition ins_all (fl : flags) (o : ostream) (l : list piece) : ostream := fold_left (ins_piece fl) l o.

Definition frac_pieces (f : Frac) : list piece := [Txt ["("%char]; Num (top f); Txt ["/"%char]; Num (bot f); Txt [")"%char]].
Section Elements.
Context {T : Type} (pe : T -> list piece).
Fixpoint comma_pieces (l : list T) : list piece :=
  match l with
  | [] => []
  | [e] => pe e
  | e :: l' => pe e ++ Txt [","%char; " "%char] :: comma_pieces l'
  end.
Definition vec_pieces (x : list T) : list piece := Txt ["("%char] :: comma_pieces x ++ [Txt [")"%char]].
Definition row_pieces (c : nat) (g : nat -> T) : list piece := flat_map (fun j => pe (g j) ++ [Txt [" "%char]]) (seq 0 c).
Definition mat_pieces (r c : nat) (g : nat -> nat -> T) : list piece :=
  flat_map (fun i => row_pieces c (g i) ++ (if (i <? r - 1)%nat then [Line] else [])) (seq 0 r).
End Elements.
Definition factor_pieces (x : Factor) : res (list piece) :=
  e <- equals_int32 (power x) 1 ;;
  Ok (if e : bool then [Txt (fid x)] else [Txt (fid x); Txt ["^"%char]; Num (power x)]).
Fixpoint factors_pieces (l : list Factor) : res (list piece) :=
  match l with
  | [] => Ok []
  | x :: l' => a <- factor_pieces x ;; b <- factors_pieces l' ;; Ok (Txt TIMES :: a ++ b)
  end.
Definition term_pieces (t : Term) : res (list piece) :=
  zero <- Frac_of_int 0 ;;
  one <- Frac_of_int 1 ;;
  z <- F_eq (coeff t) zero ;;
  if z : bool then Ok [Txt ["0"%char]]
  else
    u <- F_eq (coeff t) one ;;
    match map snd (factors t) with
    | [] => Ok (if u : bool then [Txt ["1"%char]] else frac_pieces (coeff t))
    | x :: l =>
        if u : bool then a <- factor_pieces x ;; b <- factors_pieces l ;; Ok (a ++ b)
        else b <- factors_pieces (x :: l) ;; Ok (frac_pieces (coeff t) ++ b)
    end.
Fixpoint terms_pieces (l : list Term) : res (list piece) :=
  match l with
  | [] => Ok []
  | t :: l' => a <- term_pieces t ;; b <- terms_pieces l' ;; Ok (Txt PLUS :: a ++ b)
  end.
Definition poly_pieces (p : Poly) : res (list piece) :=
  match p with
  | [] => Ok []
  | t :: l => a <- term_pieces t ;; b <- terms_pieces l ;; Ok (a ++ b)
  end.
(** operator<< of a deque of bins -- src/Int.cpp:4-14 *)
Definition deque_pieces (l : list Z) : list piece := Txt DEQUE_OPEN :: comma_pieces (fun b => [Small b]) l ++ [Txt ["]"%char]].
