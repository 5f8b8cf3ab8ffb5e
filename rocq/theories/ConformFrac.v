(** The model against test/frac_test.hpp, test/poly_test.hpp and
    demo/frac_demo.cpp. *)
From Coq Require Import Ascii String SpecFloat.
From Verif Require Import Base IntModel IOModel FracModel ElemModel PolyModel CommonModel DoubleModel ConformInt.
Local Open Scope Z_scope.
Local Open Scope list_scope.

(** Frac(a), Frac(a, b), Frac("...") *)
Definition f1 (a : Z) : res Frac := Frac_of_int a.
Definition f2 (a b : Z) : res Frac := a <- n a ;; b <- n b ;; Frac_make a b.
Definition fs (t : string) : res Frac := Frac_of_string (text t).
Definition fout (f : res Frac) (t : string) : res bool := f <- f ;; Ok (same_text (Frac_to_string f) (text t)).
(** the double nearest to a / 10^k, for the a and k below *)
Definition lit (a k : Z) : spec_float := SFdiv 53 1024 (double_of_int a) (double_of_int (10 ^ k)).
Definition dmax : spec_float := S754_finite false 9007199254740991 971.
Definition dmin : spec_float := S754_finite false 4503599627370496 (-1074).
Definition inf : spec_float := S754_infinity false.

(** TEST(constructionAndOutput) *)
Example frac_construction : all_pass [
  fout (f1 0) "(0/1)"; fout (f1 1) "(1/1)"; fout (f1 12) "(12/1)"; fout (f2 5 2) "(5/2)"; fout (f2 10 4) "(5/2)"; fout (f2 10 100) "(1/10)";
  fout (f2 (-11) 44) "(-1/4)"; fout (f2 22 (-44)) "(-1/2)"; fout (f2 (-33) (-44)) "(3/4)"; throws DivideByZero (f2 4 0);
  fout (fs "0/1") "(0/1)"; fout (fs "-0/1") "(0/1)"; fout (fs "-12/-13") "(12/13)"; fout (fs "12/-14") "(-6/7)";
  throws InvalidArgument (fs "-"); throws InvalidArgument (fs "-/"); throws InvalidArgument (fs "1/"); throws InvalidArgument (fs "  1   /   ")] = true.
Proof. vm_compute. reflexivity. Qed.
(** TEST(isFiniteFunction) *)
Example frac_isFinite : forallb isFinite [lit 0 0; lit (-1) 0; lit 1 0; dmin; dmax] = true /\
  existsb isFinite [inf; SFopp inf; S754_nan] = false.
Proof. vm_compute. auto. Qed.
(** TEST(fromDouble), default precision 15; the check of numeric_limits<double>::max() also holds but
    takes coqchk a minute *)
Definition fd (d : spec_float) : res Frac := from_double d 15.
Example frac_fromDouble : all_pass [
  fout (fd (lit 0 0)) "(0/1)"; fout (fd (lit 1 0)) "(1/1)"; fout (fd (lit (-1) 0)) "(-1/1)"; fout (fd (lit 11 1)) "(11/10)";
  fout (fd (lit 111 1)) "(111/10)"; fout (fd (lit 111 2)) "(111/100)"; fout (fd (lit 111 3)) "(111/1000)"; fout (fd (lit 1111 4)) "(1111/10000)";
  fout (fd (lit 11111 5)) "(11111/100000)"; fout (fd (lit 123456789 9)) "(123456789/1000000000)";
  fout (fd dmin) "(0/1)"; throws InvalidArgument (fd inf); throws InvalidArgument (fd S754_nan)] = true.
Proof. vm_compute. reflexivity. Qed.
(** TEST(fracInstream) *)
Definition runInstream (t : string) (expected : res Frac) : res bool :=
  f <- Frac_default ;; let '(s, p) := Frac_read (istream_of (text t)) f in
  g <- result p ;; e <- expected ;; if fail s then Ok false else F_eq g e.
Example frac_instream : all_pass [
  runInstream "0" (f1 0); runInstream "(0)" (f1 0); runInstream "0/1" (f1 0); runInstream "(0/1)" (f1 0); runInstream "-0" (f1 0);
  runInstream "-0/1" (f1 0); runInstream "-0/-1" (f1 0); runInstream "0/-1" (f1 0); runInstream "(00000/11111111)" (f1 0);
  runInstream "1/1" (f1 1); runInstream "(1/1)" (f1 1); runInstream "(-1/1)" (f1 (-1)); runInstream "(1/-1)" (f1 (-1)); runInstream "(-1/-1)" (f1 1);
  runInstream "(1/2)" (f2 1 2); runInstream "1/2" (f2 1 2); runInstream "(1/23)" (f2 1 23); runInstream "(1234/5678)" (f2 1234 5678);
  runInstream "123456789123456789/987654321987654321" (f2 123456789123456789 987654321987654321)] = true.
Proof. vm_compute. reflexivity. Qed.
(** TEST(relationalOperators) ... TEST(exponentiation) *)
Definition o2 (op : Frac -> Frac -> res Frac) (x y e : res Frac) : res bool := x <- x ;; y <- y ;; e <- e ;; r <- op x y ;; F_eq r e.
Definition c2 (op : Frac -> Frac -> res bool) (x y : res Frac) : res bool := x <- x ;; y <- y ;; op x y.
Definition a2 (op : Frac -> option Frac -> fst_res) (x y e : res Frac) : res bool := x <- x ;; y <- y ;; e <- e ;; r <- result (op x (Some y)) ;; F_eq r e.
Definition a1 (op : Frac -> option Frac -> fst_res) (x e : res Frac) : res bool := x <- x ;; e <- e ;; r <- result (op x None) ;; F_eq r e.
Definition ai (op : Frac -> Int -> fst_res) (x : res Frac) (k : Z) (e : res Frac) : res bool :=
  x <- x ;; i <- n k ;; e <- e ;; r <- result (op x i) ;; F_eq r e.
Definition x := f2 3 2.
Definition y := f2 (-7) 3.
Definition z := f2 3 1.
Definition a := f2 4 5.
Definition b := f2 6 5.
Example frac_relational : all_pass [c2 F_eq x x; c2 F_eq x (f2 6 4); c2 F_ne x z; c2 F_ne x a; c2 F_ne x b; c2 F_lt a z; c2 F_lt a b; c2 F_lt a x;
  c2 F_le x x; c2 F_le x z; c2 F_le x (f2 6 4); c2 F_ge x x; c2 F_ge x (f2 6 4); c2 F_ge z x] = true.
Proof. vm_compute. reflexivity. Qed.
Example frac_arithmetic : all_pass [
  o2 F_add x x z; o2 F_add a b (f2 2 1); o2 F_add x a (f2 23 10); o2 F_add x y (f2 (-5) 6); o2 F_sub a b (f2 (-2) 5); o2 F_sub x x (f2 0 1);
  o2 F_sub b x (f2 (-3) 10); a1 F_add_assign x z; a2 F_add_assign x a (f2 23 10); a2 F_sub_assign a b (f2 (-2) 5); a1 F_sub_assign x (f1 0);
  ai FI_add_assign x 3 (f2 9 2); ai FI_sub_assign (f2 9 2) 3 (f2 3 2);
  o2 F_mul x x (f2 9 4); o2 F_mul x y (f2 (-7) 2); o2 F_mul x a b; o2 F_mul x (f1 0) (f1 0); o2 F_div x x (f1 1); o2 F_div x y (f2 (-9) 14);
  o2 F_div x a (f2 15 8); o2 F_div a b (f2 2 3); a1 F_mul_assign x (f2 9 4); a1 F_div_assign (f2 9 4) (f2 1 1); a2 F_mul_assign x y (f2 (-7) 2);
  a2 F_div_assign a b (f2 2 3); ai FI_mul_assign x 3 (f2 9 2); ai FI_div_assign (f2 9 2) 3 (f2 3 2);
  (p <- x ;; k <- n 3 ;; r <- F_pow p k ;; e <- f2 27 8 ;; F_eq r e); ai F_pow_assign x 3 (f2 27 8)] = true.
Proof. vm_compute. reflexivity. Qed.
(** demo/frac_demo.cpp *)
Example frac_demo : all_pass [
  fout (f2 5 20) "(1/4)"; fout (fs "-21/63") "(-1/3)";
  (p <- f2 5 20 ;; q <- fs "-21/63" ;; fout (F_add p q) "(-1/12)"); (p <- f2 5 20 ;; q <- fs "-21/63" ;; fout (F_sub p q) "(7/12)");
  (p <- f2 5 20 ;; q <- fs "-21/63" ;; fout (F_mul p q) "(-1/12)"); (p <- f2 5 20 ;; q <- fs "-21/63" ;; fout (F_div p q) "(-3/4)");
  (p <- f2 5 20 ;; k <- n 2 ;; fout (F_pow p k) "(1/16)"); (p <- f2 5 20 ;; fout (reciprocal p) "(4/1)");
  (u <- n 45 ;; v <- n 40 ;; testOutput (GCD u v) "5"); fout (fd (lit 2 1)) "(1/5)";
  (p <- Frac_default ;; fout (result (snd (Frac_read (istream_of (text "(41/189)")) p))) "(41/189)")] = true.
Proof. vm_compute. reflexivity. Qed.

(** test/poly_test.hpp *)
Definition fac (t : string) (p : Z) : res Factor := p <- n p ;; Ok (mkFactor (text t) p).
Definition pout {A} (pr : ostream -> A -> res ostream) (m : res A) (t : string) : res bool := v <- m ;; o <- pr fresh_out v ;; Ok (same_text (obuf o) (text t)).
Definition fx := fac "x" 3.
Definition fy := fac "y" 2.
Definition fz := fac "z" 1.
Definition ax := c <- f1 2 ;; v <- fx ;; Term_of c v.
Definition by_ := c <- f1 3 ;; v <- fy ;; Term_of c v.
Definition cz := c <- f1 4 ;; v <- fz ;; Term_of c v.
Definition m2 {A B C} (op : A -> B -> res C) (p : res A) (q : res B) : res C := p <- p ;; q <- q ;; op p q.
Example poly_output : all_pass [
  pout factor_print (fac "x" 1) "x"; pout factor_print (fac "x" 2) "x^2";
  pout term_print (m2 factor_mul fx fy) "x^3 * y^2"; pout term_print (m2 factor_mul fy fx) "x^3 * y^2";
  pout term_print (m2 factor_mul fx fx) "x^6"; pout term_print (m2 factor_mul fy fy) "y^4";
  pout term_print (m2 term_mul_factor ax fx) "(2/1) * x^6"; pout term_print (m2 factor_mul_term fx ax) "(2/1) * x^6";
  pout term_print (m2 term_mul_factor ax fy) "(2/1) * x^3 * y^2"; pout term_print (m2 factor_mul_term fy ax) "(2/1) * x^3 * y^2";
  pout term_print (m2 term_mul_factor by_ fx) "(3/1) * x^3 * y^2"; pout term_print (m2 factor_mul_term fx by_) "(3/1) * x^3 * y^2";
  pout term_print (m2 term_mul ax by_) "(6/1) * x^3 * y^2"; pout term_print (m2 term_mul by_ ax) "(6/1) * x^3 * y^2";
  pout term_print (m2 term_mul ax ax) "(4/1) * x^6"; pout term_print (m2 term_mul by_ by_) "(9/1) * y^4";
  pout term_print (m2 term_mul (m2 term_mul by_ ax) cz) "(24/1) * x^3 * y^2 * z"; pout term_print (m2 term_mul (m2 term_mul cz by_) ax) "(24/1) * x^3 * y^2 * z";
  pout term_print (m2 term_mul (m2 term_mul ax cz) by_) "(24/1) * x^3 * y^2 * z";
  m2 term_lt ax by_; m2 term_lt by_ cz; m2 term_lt ax cz; m2 term_lt ax (m2 term_mul ax ax); m2 term_lt by_ (m2 term_mul by_ by_);
  pout poly_print (v <- fx ;; Poly_of_factor v) "x^3"; pout poly_print (v <- fy ;; Poly_of_factor v) "y^2"; pout poly_print (v <- fz ;; Poly_of_factor v) "z";
  pout poly_print (v <- ax ;; Poly_of_term v) "(2/1) * x^3"; pout poly_print (v <- by_ ;; Poly_of_term v) "(3/1) * y^2";
  pout poly_print (v <- cz ;; Poly_of_term v) "(4/1) * z"] = true.
Proof. vm_compute. reflexivity. Qed.
(** TEST(PolyOutput) relies on undefined behaviour (see C55): the first appendTerm
    dereferences end() of the empty list. *)
Example poly_output_undefined : (t <- ax ;; u <- by_ ;; v <- cz ;; Poly_of_terms [t; u; v]) = UB.
Proof. vm_compute. reflexivity. Qed.
