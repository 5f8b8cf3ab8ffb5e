(** The model against the repository's own tests: test/int_test.hpp and
    demo/int_demo.cpp. Each test function is transcribed; the lists of checks are
    generated by tools/gen_conformance.py from the text of the tests. *)
From Coq Require Import Ascii String.
From Verif Require Import Base IntModel IOModel.
Local Open Scope Z_scope.
Local Open Scope list_scope.

Definition text (t : string) : chars := list_ascii_of_string t.
(** Int("...") and Int(k) *)
Definition s (t : string) : res Int := Int_of_string (text t).
Definition n (k : Z) : res Int := Int_of_int64 k 0.
Definition passes (m : res bool) : bool := match m with Ok b => b | _ => false end.
Definition all_pass (l : list (res bool)) : bool := forallb passes l.
Definition both (a b : res bool) : res bool := x <- a ;; if x : bool then b else Ok false.
(** CHECK_THROW *)
Definition throws {A} (e : exn) (m : res A) : res bool :=
  Ok match m, e with
     | Throw DivideByZero, DivideByZero | Throw InvalidArgument, InvalidArgument | Throw DomainError, DomainError => true
     | _, _ => false
     end.
(** testOutput -- src/common.hpp:64-72 *)
Definition same_text (a b : chars) : bool := if list_eq_dec ascii_dec a b then true else false.
Definition testOutput (x : res Int) (t : string) : res bool := x <- x ;; Ok (same_text (Int_to_string x) (text t)).

(** test/int_test.hpp:14-170 *)
Definition runLessThan (x y : res Int) (expected : bool) : res bool :=
  x <- x ;; y <- y ;; lt <- op_lt x y ;; Ok (Bool.eqb lt expected).
Definition run2 (op : Int -> Int -> res Int) (opA : Int -> option Int -> res Int) (x y expected : res Int) : res bool :=
  x <- x ;; y <- y ;; e <- expected ;;
  both (r <- op x y ;; op_eq r e) (r <- opA x (Some y) ;; op_eq r e).
Definition runAddition := run2 op_add add_assign.
Definition runSubtraction := run2 op_sub sub_assign.
Definition runMultiplication := run2 op_mul mul_assign.
Definition runDivision := run2 op_div div_assign.
Definition runModulus := run2 op_mod mod_assign.
Definition runExponentiation := run2 op_pow pow_assign.
Definition runDivideByInt (x : res Int) (y : Z) (expected : res Int) : res bool :=
  x <- x ;; e <- expected ;; r <- divide_by_int x y false ;; op_eq r e.
Definition runTimesPowerTen (x : res Int) (p : Z) (expected : res Int) : res bool :=
  x <- x ;; e <- expected ;; r <- times_power_ten x p ;; op_eq r e.
Definition runQuotientAndRemainder (y x : res Int) (q : Z) (r : res Int) : res bool :=
  y <- y ;; x <- x ;; r <- r ;; p <- quotient_and_remainder y x Int_default ;; e <- op_eq (snd p) r ;; Ok ((fst p =? q) && e).

(** for (i = a; i < a + k * step; i += step) *)
Definition range (a step : Z) (k : nat) : list Z := map (fun i => a + step * Z.of_nat i) (seq 0 k).
Definition pairs {A B} (f : A -> B -> res bool) (l : list A) (r : list B) : bool :=
  forallb (fun a => forallb (fun b => passes (f a b)) r) l.

Example loop_quotient : all_pass (map (fun i => runQuotientAndRemainder (n i) (n 1) i (n 0)) (range 1 1 9)) = true.
Proof. vm_compute. reflexivity. Qed.

(** TEST(printInt) *)
Definition digits := "123456789123456789123456789123456789"%string.
Definition zeros := "000000000000000000000"%string.
Definition padded := "000000000123456789123456789"%string.
Example test_printInt :
  all_pass (map (fun i => let y := substring 0 (i + 1) digits in
    both (testOutput (s y) y) (testOutput (s ("-" ++ y)) ("-" ++ y))) [0; 7; 8; 9; 17; 18; 35]%nat) = true /\
  all_pass (map (fun i => let y := substring 0 (i + 1) zeros in
    both (testOutput (s y) "0") (testOutput (s ("-" ++ y)) "0")) [0; 8; 9; 20]%nat) = true /\
  all_pass (map (fun i => let y := substring 0 (i + 10) padded in let z := substring 9 (i + 1) padded in
    both (testOutput (s y) z) (testOutput (s ("-" ++ y)) ("-" ++ z))) [0; 8; 16]%nat) = true /\
  all_pass (map (fun i => testOutput (s (substring i 27 padded)) (substring 9 27 padded)) (seq 0 9)) = true /\
  all_pass [
    throws InvalidArgument (s "abcdefghij"); throws InvalidArgument (s "1234567a9"); throws InvalidArgument (s "");
    testOutput (Int_of_int64 9999 2) "9999000000000000000000";
    testOutput (Int_of_int64 1234567891234567 0) "1234567891234567";
    testOutput (Int_of_int64 1234567891234567 2) "1234567891234567000000000000000000";
    testOutput (s "152415787806666675432666675280250887626") "152415787806666675432666675280250887626"] = true.
Proof. vm_compute. auto. Qed.

(** TEST(booleanOperators), TEST(negation) *)
Definition is_ (m : res bool) (b : bool) : res bool := x <- m ;; Ok (Bool.eqb x b).
Example test_booleanOperators :
  pairs (fun i j => a <- n i ;; b <- n j ;;
    both (is_ (op_lt a b) (i <? j)) (both (is_ (op_le a b) (i <=? j)) (both (is_ (op_gt a b) (i >? j))
    (both (is_ (op_ge a b) (i >=? j)) (both (is_ (op_eq a b) (i =? j)) (is_ (op_ne a b) (negb (i =? j))))))))
    (range (-9) 4 5) (range (-9) 4 5) = true.
Proof. vm_compute. reflexivity. Qed.
Example test_negation : all_pass [
  (x <- n 3 ;; y <- n (-3) ;; m <- op_neg x ;; op_eq m y); (x <- n 3 ;; y <- n (-3) ;; m <- op_neg y ;; op_eq m x);
  (y <- n (-3) ;; z <- n 0 ;; m <- op_neg y ;; op_gt m z); (x <- n 3 ;; z <- n 0 ;; m <- op_neg x ;; op_lt m z)] = true.
Proof. vm_compute. reflexivity. Qed.

(** The loops of TEST(addition), (subtraction), (multiplication), (division) *)
Example loop_addition : pairs (fun i j => runAddition (n i) (n j) (n (i + j))) (range (-30) 14 5) (range (-50) 24 5) = true.
Proof. vm_compute. reflexivity. Qed.
Example loop_subtraction : pairs (fun i j => runSubtraction (n i) (n j) (n (i - j))) (range (-30) 14 5) (range (-50) 24 5) = true.
Proof. vm_compute. reflexivity. Qed.
Example loop_multiplication : pairs (fun i j => runMultiplication (n i) (n j) (n (i * j))) (range (-50) 24 5) (range (-100) 49 5) = true.
Proof. vm_compute. reflexivity. Qed.
Example loop_division : pairs (fun i j => runDivision (n i) (n j) (n (Z.quot i j)))
  (range (-100000000000000) 77777777777770 3) (range (-100000000000000) 99999999999990 3) = true.
Proof. vm_compute. reflexivity. Qed.

(** x op= x *)
Definition self (op : Int -> option Int -> res Int) (t expected : string) : res bool := testOutput (x <- s t ;; op x None) expected.
Example test_self : all_pass [
  self add_assign "111111111222222222" "222222222444444444"; self add_assign "-111111111222222222" "-222222222444444444";
  self sub_assign "111111111222222222" "0"; self sub_assign "-111111111222222222" "0";
  self mul_assign "111111111222222222" "12345679037037036999999999950617284";
  self mul_assign "-111111111222222222" "12345679037037036999999999950617284";
  self div_assign "111111111222222222" "1"; self div_assign "-111111111222222222" "1";
  self mod_assign "111111111222222222" "0"; self mod_assign "-111111111222222222" "0";
  self pow_assign "7" "823543"] = true.
Proof. vm_compute. reflexivity. Qed.
Example test_divide_by_zero : all_pass [
  throws DivideByZero (runDivideByInt (s "1") 0 (s "1")); throws DivideByZero (runDivision (s "1") (s "0") (s "1"));
  throws DivideByZero (runModulus (s "1234") (s "0") (n 0))] = true.
Proof. vm_compute. reflexivity. Qed.

(** TEST(inStream): the same Int read again and again *)
Definition read_ok (x : res Int) (t : string) : res Int :=
  x <- x ;; p <- Int_read (istream_of (text t)) x ;; if fail (fst p) then UB else Ok (snd p).
Fixpoint read_all (x : res Int) (l : list string) : list (res bool) :=
  match l with [] => [] | t :: l' => let y := read_ok x t in testOutput y t :: read_all y l' end.
Example test_inStream :
  all_pass (read_all (Ok Int_default) ["0"; "5"; "-5"; "1234"; "-1234"; "1123456789"; "-1123456789"; "123456789123456789"; "-123456789123456789"]%string) = true /\
  all_pass (map (fun t => x <- s "-123456789123456789" ;; p <- Int_read (istream_of (text t)) x ;; Ok (failbit (fst p))) ["-"; "a"; "a1234"]%string) = true.
Proof. vm_compute. auto. Qed.

(** demo/int_demo.cpp: the transcript in the comment at its end *)
Definition x_ := s "123456789012345678901234567890".
Definition y_ := s "987654321098765432109876543210".
Definition z_ := s "-12345678901234567890".
Definition op2 (op : Int -> Int -> res Int) (x y : res Int) : res Int := x <- x ;; y <- y ;; op x y.
Example int_demo : all_pass [
  testOutput x_ "123456789012345678901234567890"; testOutput y_ "987654321098765432109876543210"; testOutput z_ "-12345678901234567890";
  testOutput (op2 op_add x_ y_) "1111111110111111111011111111100"; testOutput (op2 op_add x_ z_) "123456789000000000000000000000";
  testOutput (op2 op_sub x_ y_) "-864197532086419753208641975320"; testOutput (op2 op_div x_ y_) "0"; testOutput (op2 op_div y_ x_) "8";
  testOutput (op2 op_mod x_ z_) "-12345678900000000000"] = true.
Proof. vm_compute. reflexivity. Qed.

(** TEST(quotientAndRemainder) *)
Example test_quotientAndRemainder : all_pass [
  runQuotientAndRemainder (n (8)) (n (5)) (1) (n (3))] = true.
Proof. vm_compute. reflexivity. Qed.

(** TEST(lessThan) *)
Example test_lessThan : all_pass [
  runLessThan (n (1)) (n (2)) true;
  runLessThan (n (-1)) (n (2)) true;
  runLessThan (n (-2)) (n (1)) true;
  runLessThan (n (-2)) (n (-1)) true;
  runLessThan (n (2)) (n (1)) false;
  runLessThan (n (2)) (n (-1)) false;
  runLessThan (n (1)) (n (-2)) false;
  runLessThan (n (-1)) (n (-2)) false;
  runLessThan (n (-1)) (n (-1)) false;
  runLessThan (n (1)) (n (1)) false;
  runLessThan (n (0)) (n (0)) false;
  runLessThan (n (0)) (n (1)) true] = true.
Proof. vm_compute. reflexivity. Qed.

(** TEST(addition) *)
Example test_addition : all_pass [
  runAddition (s "99999999999999") (s "1") (s "100000000000000");
  runAddition (s "123456789012345678") (s "9876543210") (s "123456798888888888");
  runAddition (s "123456789012345678") (s "987654") (s "123456789013333332");
  runAddition (s "999999999") (s "999999999") (s "1999999998");
  runAddition (s "999999999999999999") (s "999999999999999999") (s "1999999999999999998")] = true.
Proof. vm_compute. reflexivity. Qed.

(** TEST(subtraction) *)
Example test_subtraction : all_pass [
  runSubtraction (s "1000000000000") (s "1") (s "999999999999");
  runSubtraction (s "123456798888888888") (s "9876543210") (s "123456789012345678");
  runSubtraction (s "123456789013333332") (s "987654") (s "123456789012345678");
  runSubtraction (s "1") (s "999999999999999999") (s "-999999999999999998");
  runSubtraction (s "1000000001") (s "999999999999999999") (s "-999999998999999998")] = true.
Proof. vm_compute. reflexivity. Qed.

(** TEST(multiplication) *)
Example test_multiplication : all_pass [
  runMultiplication (s "999999999") (s "999999999") (s "999999998000000001");
  runMultiplication (s "9999999999") (s "9999999999") (s "99999999980000000001");
  runMultiplication (s "1234567891234") (s "123456789123456789123456789") (s "152415787806666675432666675280250887626")] = true.
Proof. vm_compute. reflexivity. Qed.

(** TEST(division) *)
Example test_division : all_pass [
  runDivideByInt (s "999999999999999999") (9) (s "111111111111111111");
  runDivideByInt (s "999999999999999998") (9) (s "111111111111111110");
  runDivideByInt (s "999999999999999999") (3456) (s "289351851851851");
  runDivideByInt (s "123456789123456789") (3456) (s "35722450556555");
  runDivision (s "152415787806666675432666675280250887626") (s "123456789123456789123456789") (s "1234567891234");
  runDivision (s "892688549133587473460685901957574028827081901509624") (s "683073114412696749374388399771506007302687338290210") (s "1");
  runDivision (s "159069612686013579774547350977484902995571365005296") (s "41760137312781808541142105296096759875884125968758") (s "3");
  runDivision (s "765957773798222602137633586743641814684603288089155") (s "537204038351133654713387408478559543656727188063263") (s "1");
  runDivision (s "852934782428991665597506037335469617630772170224373") (s "73407779909874116411243581816067470238234948055227") (s "11");
  runDivision (s "741876764515954241240946435473141754834413033246489") (s "741460238259148699935829316897511175519334425294893") (s "1");
  runDivision (s "81625165475312641478534468455447959293609303881517") (s "70369030994212948397524596189686127723792293577305") (s "1");
  runDivision (s "175185146111993348257111610634624552199145346790096") (s "121768966843114993816061624840891743370298576756047") (s "1")] = true.
Proof. vm_compute. reflexivity. Qed.

(** TEST(modulus) *)
Example test_modulus : all_pass [
  runModulus (s "0") (s "3") (n (0));
  runModulus (s "5") (s "3") (n (2));
  runModulus (s "5") (s "-3") (n (-1));
  runModulus (s "-5") (s "3") (n (1));
  runModulus (s "-5") (s "-3") (n (-2));
  runModulus (s "-5") (s "-5") (n (0));
  runModulus (s "5") (s "-5") (n (0));
  runModulus (s "-5") (s "5") (n (0));
  runModulus (s "5") (s "5") (n (0));
  runModulus (s "987654321") (s "417") (n (246));
  runModulus (s "-987654321") (s "417") (n (171));
  runModulus (s "987654321") (s "-417") (n (-171));
  runModulus (s "-987654321") (s "-417") (n (-246))] = true.
Proof. vm_compute. reflexivity. Qed.

(** TEST(exponentiation) *)
Example test_exponentiation : all_pass [
  runExponentiation (n (2)) (n (0)) (n (1));
  runExponentiation (n (2)) (n (1)) (n (2));
  runExponentiation (n (2)) (n (2)) (n (4));
  runExponentiation (n (2)) (n (3)) (n (8));
  runExponentiation (n (-2)) (n (0)) (n (1));
  runExponentiation (n (-2)) (n (1)) (n (-2));
  runExponentiation (n (-2)) (n (2)) (n (4));
  runExponentiation (n (-2)) (n (3)) (n (-8));
  runExponentiation (n (2)) (n (8)) (n (256));
  runExponentiation (n (2)) (n (9)) (n (512))] = true.
Proof. vm_compute. reflexivity. Qed.

(** TEST(timesPowerTen) *)
Example test_timesPowerTen : all_pass [
  runTimesPowerTen (n (2)) (0) (s "2");
  runTimesPowerTen (n (2)) (1) (s "20");
  runTimesPowerTen (n (2)) (2) (s "200");
  runTimesPowerTen (n (2)) (3) (s "2000");
  runTimesPowerTen (n (2)) (4) (s "20000");
  runTimesPowerTen (n (2)) (5) (s "200000");
  runTimesPowerTen (n (2)) (6) (s "2000000");
  runTimesPowerTen (n (2)) (7) (s "20000000");
  runTimesPowerTen (n (2)) (8) (s "200000000");
  runTimesPowerTen (n (2)) (9) (s "2000000000");
  runTimesPowerTen (n (2)) (10) (s "20000000000");
  runTimesPowerTen (n (2)) (11) (s "200000000000")] = true.
Proof. vm_compute. reflexivity. Qed.
