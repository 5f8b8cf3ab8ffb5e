(** Several extractions from one stream: in >> a >> b >> ..., with
    operator>> of Int (src/Int.cpp:20-22, Int::read 72-130) and std::ws between them. *)
From Coq Require Import Ascii.
From Verif Require Import Base IntModel IOModel.

(** in >> x1 >> x2 >> ... for the objects of a list, with their new values *)
Fixpoint extract_all (s : istream) (l : list Int) : res (istream * list Int) :=
  match l with
  | [] => Ok (s, [])
  | x :: l => '(s, y) <- Int_read s x ;; '(s, ys) <- extract_all s l ;; Ok (s, y :: ys)
  end.

(** isspace in the "C" locale *)
Definition isspace (c : ascii) : bool := (code c =? 32) || ((9 <=? code c) && (code c <=? 13)).
(** in >> std::ws: extracts white space; eofbit at the end of the characters. Only
    used here on streams in a good state. *)
Fixpoint skip_space (r b : chars) : chars * chars :=
  match r with
  | c :: r' => if isspace c then skip_space r' (c :: b) else (r, b)
  | [] => ([], b)
  end.
Definition ws (s : istream) : istream :=
  let '(r, b) := skip_space (rest s) (back s) in
  mkIn r b (eofbit s || match r with [] => true | _ => false end) (failbit s) (badbit s).
(** in >> std::ws >> x1 >> std::ws >> x2 >> ... *)
Fixpoint extract_ws (s : istream) (l : list Int) : res (istream * list Int) :=
  match l with
  | [] => Ok (s, [])
  | x :: l => '(s, y) <- Int_read (ws s) x ;; '(s, ys) <- extract_ws s l ;; Ok (s, y :: ys)
  end.
