(** The model against the repository's own tests: test/int_test.hpp and
    demo/int_demo.cpp. Each test function is transcribed; the lists of checks are
    generated by tools/gen_conformance.py from the text of the tests. *)
From Coq Require Import Ascii String.
From Verif Require Import Base IntModel IOModel.
Local Open Scope Z_scope.
Local Open Scope list_scope.

Definition text (t : string) : chars := list_ascii_of_string t.
(** Int("...") and Int(k) *)
Definition s (t : string) : res Int := Int_of_string (text t).
Definition n (k : Z) : res Int := Int_of_int64 k 0.
Definition passes (m : res bool) : bool := match m with Ok b => b | _ => false end.
Definition all_pass (l : list (res bool)) : bool := forallb passes l.
Definition both (a b : res bool) : res bool := x <- a ;; if x : bool then b else Ok false.
(** CHECK_THROW *)
Definition throws {A} (e : exn) (m : res A) : res bool :=
  Ok match m, e with
     | Throw DivideByZero, DivideByZero | Throw InvalidArgument, InvalidArgument | Throw DomainError, DomainError => true
     | _, _ => false
     end.
(** testOutput -- src/common.hpp:64-72 *)
Definition same_text (a b : chars) : bool := if list_eq_dec ascii_dec a b then true else false.
Definition testOutput (x : res Int) (t : string) : res bool := x <- x ;; Ok (same_text (Int_to_string x) (text t)).

(** test/int_test.hpp:14-170 *)
Definition runLessThan (x y : res Int) (expected : bool) : res bool :=
  x <- x ;; y <- y ;; lt <- op_lt x y ;; Ok (Bool.eqb lt expected).
Definition run2 (op : Int -> Int -> res Int) (opA : Int -> option Int -> res Int) (x y expected : res Int) : res bool :=
  x <- x ;; y <- y ;; e <- expected ;;
  both (r <- op x y ;; op_eq r e) (r <- opA x (Some y) ;; op_eq r e).
Definition runAddition := run2 op_add add_assign.
Definition runSubtraction := run2 op_sub sub_assign.
Definition runMultiplication := run2 op_mul mul_assign.
Definition runDivision := run2 op_div div_assign.
Definition runModulus := run2 op_mod mod_assign.
Definition runExponentiation := run2 op_pow pow_assign.
Definition runDivideByInt (x : res Int) (y : Z) (expected : res Int) : res bool :=
  x <- x ;; e <- expected ;; r <- divide_by_int x y false ;; op_eq r e.
Definition runTimesPowerTen (x : res Int) (p : Z) (expected : res Int) : res bool :=
  x <- x ;; e <- expected ;; r <- times_power_ten x p ;; op_eq r e.
Definition runQuotientAndRemainder (y x : res Int) (q : Z) (r : res Int) : res bool :=
  y <- y ;; x <- x ;; r <- r ;; p <- quotient_and_remainder y x Int_default ;; e <- op_eq (snd p) r ;; Ok ((fst p =? q) && e).

(** for (i = a; i < a + k * step; i += step) *)
Definition range (a step : Z) (k : nat) : list Z := map (fun i => a + step * Z.of_nat i) (seq 0 k).
Definition pairs {A B} (f : A -> B -> res bool) (l : list A) (r : list B) : bool :=
  forallb (fun a => forallb (fun b => passes (f a b)) r) l.

Example loop_quotient : all_pass (map (fun i => runQuotientAndRemainder (n i) (n 1) i (n 0)) (range 1 1 9)) = true.
Proof. vm_compute. reflexivity. Qed.

(** TEST(printInt) *)
Definition digits := "123456789123456789123456789123456789"%string.
Definition zeros := "000000000000000000000"%string.
Definition padded := "000000000123456789123456789"%string.
Example test_printInt :
  all_pass (map (fun i => let y := substring 0 (i + 1) digits in
    both (testOutput (s y) y) (testOutput (s ("-" ++ y)) ("-" ++ y))) (*light*)[0; 7; 8; 9; 17; 18; 35](*full(seq 0 36)*)%nat) = true /\
  all_pass (map (fun i => let y := substring 0 (i + 1) zeros in
    both (testOutput (s y) "0") (testOutput (s ("-" ++ y)) "0")) (*light*)[0; 8; 9; 20](*full(seq 0 21)*)%nat) = true /\
  all_pass (map (fun i => let y := substring 0 (i + 10) padded in let z := substring 9 (i + 1) padded in
    both (testOutput (s y) z) (testOutput (s ("-" ++ y)) ("-" ++ z))) (*light*)[0; 8; 16](*full(seq 0 17)*)%nat) = true /\
  all_pass (map (fun i => testOutput (s (substring i 27 padded)) (substring 9 27 padded)) (seq 0 9)) = true /\
  all_pass [
    throws InvalidArgument (s "abcdefghij"); throws InvalidArgument (s "1234567a9"); throws InvalidArgument (s "");
    testOutput (Int_of_int64 9999 2) "9999000000000000000000";
    testOutput (Int_of_int64 1234567891234567 0) "1234567891234567";
    testOutput (Int_of_int64 1234567891234567 2) "1234567891234567000000000000000000";
    testOutput (s "152415787806666675432666675280250887626") "152415787806666675432666675280250887626"] = true.
Proof. vm_compute. auto. Qed.

(** TEST(booleanOperators), TEST(negation) *)
Definition is_ (m : res bool) (b : bool) : res bool := x <- m ;; Ok (Bool.eqb x b).
Example test_booleanOperators :
  pairs (fun i j => a <- n i ;; b <- n j ;;
    both (is_ (op_lt a b) (i <? j)) (both (is_ (op_le a b) (i <=? j)) (both (is_ (op_gt a b) (i >? j))
    (both (is_ (op_ge a b) (i >=? j)) (both (is_ (op_eq a b) (i =? j)) (is_ (op_ne a b) (negb (i =? j))))))))
    (*light*)(range (-9) 4 5) (range (-9) 4 5)(*full(range (-9) 1 18) (range (-9) 1 18)*) = true.
Proof. vm_compute. reflexivity. Qed.
Example test_negation : all_pass [
  (x <- n 3 ;; y <- n (-3) ;; m <- op_neg x ;; op_eq m y); (x <- n 3 ;; y <- n (-3) ;; m <- op_neg y ;; op_eq m x);
  (y <- n (-3) ;; z <- n 0 ;; m <- op_neg y ;; op_gt m z); (x <- n 3 ;; z <- n 0 ;; m <- op_neg x ;; op_lt m z)] = true.
Proof. vm_compute. reflexivity. Qed.

(** The loops of TEST(addition), (subtraction), (multiplication), (division) *)
Example loop_addition : pairs (fun i j => runAddition (n i) (n j) (n (i + j))) (*light*)(range (-30) 14 5) (range (-50) 24 5)(*full(range (-30) 1 60) (range (-50) 7 15)*) = true.
Proof. vm_compute. reflexivity. Qed.
Example loop_subtraction : pairs (fun i j => runSubtraction (n i) (n j) (n (i - j))) (*light*)(range (-30) 14 5) (range (-50) 24 5)(*full(range (-30) 1 60) (range (-50) 5 20)*) = true.
Proof. vm_compute. reflexivity. Qed.
Example loop_multiplication : pairs (fun i j => runMultiplication (n i) (n j) (n (i * j))) (*light*)(range (-50) 24 5) (range (-100) 49 5)(*full(range (-50) 1 100) (range (-100) 7 29)*) = true.
Proof. vm_compute. reflexivity. Qed.
Example loop_division : pairs (fun i j => runDivision (n i) (n j) (n (Z.quot i j)))
  (*light*)(range (-100000000000000) 77777777777770 3) (range (-100000000000000) 99999999999990 3)(*full(range (-100000000000000) 7777777777777 26) (range (-100000000000000) 9999999999999 21)*) = true.
Proof. vm_compute. reflexivity. Qed.

(** x op= x *)
Definition self (op : Int -> option Int -> res Int) (t expected : string) : res bool := testOutput (x <- s t ;; op x None) expected.
Example test_self : all_pass [
  self add_assign "111111111222222222" "222222222444444444"; self add_assign "-111111111222222222" "-222222222444444444";
  self sub_assign "111111111222222222" "0"; self sub_assign "-111111111222222222" "0";
  self mul_assign "111111111222222222" "12345679037037036999999999950617284";
  self mul_assign "-111111111222222222" "12345679037037036999999999950617284";
  self div_assign "111111111222222222" "1"; self div_assign "-111111111222222222" "1";
  self mod_assign "111111111222222222" "0"; self mod_assign "-111111111222222222" "0";
  (*light*)self pow_assign "7" "823543"(*fullself pow_assign "123" ("11437436793461719009988029522806627674621807845185022977588797505" ++
                         "23695047856668964466065683652015421696499747277306288423453431965" ++
                         "81134895919942820874449837212099476648958359023796078549041949007" ++
                         "807220625356526926729664064846685758382803707100766740220839267")*)] = true.
Proof. vm_compute. reflexivity. Qed.
Example test_divide_by_zero : all_pass [
  throws DivideByZero (runDivideByInt (s "1") 0 (s "1")); throws DivideByZero (runDivision (s "1") (s "0") (s "1"));
  throws DivideByZero (runModulus (s "1234") (s "0") (n 0))] = true.
Proof. vm_compute. reflexivity. Qed.

(** TEST(inStream): the same Int read again and again *)
Definition read_ok (x : res Int) (t : string) : res Int :=
  x <- x ;; p <- Int_read (istream_of (text t)) x ;; if fail (fst p) then UB else Ok (snd p).
Fixpoint read_all (x : res Int) (l : list string) : list (res bool) :=
  match l with [] => [] | t :: l' => let y := read_ok x t in testOutput y t :: read_all y l' end.
Example test_inStream :
  all_pass (read_all (Ok Int_default) ["0"; "5"; "-5"; "1234"; "-1234"; "1123456789"; "-1123456789"; "123456789123456789"; "-123456789123456789"]%string) = true /\
  all_pass (map (fun t => x <- s "-123456789123456789" ;; p <- Int_read (istream_of (text t)) x ;; Ok (failbit (fst p))) ["-"; "a"; "a1234"]%string) = true.
Proof. vm_compute. auto. Qed.

(** demo/int_demo.cpp: the transcript in the comment at its end *)
Definition x_ := s "123456789012345678901234567890".
Definition y_ := s "987654321098765432109876543210".
Definition z_ := s "-12345678901234567890".
Definition op2 (op : Int -> Int -> res Int) (x y : res Int) : res Int := x <- x ;; y <- y ;; op x y.
Example int_demo : all_pass [
  testOutput x_ "123456789012345678901234567890"; testOutput y_ "987654321098765432109876543210"; testOutput z_ "-12345678901234567890";
  testOutput (op2 op_add x_ y_) "1111111110111111111011111111100"; testOutput (op2 op_add x_ z_) "123456789000000000000000000000";
  testOutput (op2 op_sub x_ y_) "-864197532086419753208641975320"; testOutput (op2 op_div x_ y_) "0"; testOutput (op2 op_div y_ x_) "8";
  testOutput (op2 op_mod x_ z_) "-12345678900000000000"(*light*)(*full;
  testOutput (op2 op_pow x_ (n 5)) "28679718617337040378138162708415496392486976564513250475184790028886798337811616713594453748240629383657483209495862454267363852838672048294900000"*)] = true.
Proof. vm_compute. reflexivity. Qed.
