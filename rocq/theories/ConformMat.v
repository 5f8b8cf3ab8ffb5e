(** The model against test/vec_test.hpp, test/mat_test.hpp, demo/vec_demo.cpp and
    demo/mat_demo.cpp. *)
From Coq Require Import Ascii String SpecFloat.
From Verif Require Import Base IntModel IOModel FracModel ElemModel VecModel MatModel CommonModel DoubleModel ConformInt.
Local Open Scope Z_scope.
Local Open Scope list_scope.

Definition d (k : Z) : spec_float := double_of_int k.
Definition rat (a b : Z) : spec_float := SFdiv 53 1024 (d a) (d b).
Definition ds (l : list Z) : list spec_float := map d l.
Definition out {A} (pr : ostream -> A -> res ostream) (m : res A) (t : string) : res bool := v <- m ;; o <- pr fresh_out v ;; Ok (same_text (obuf o) (text t)).
Definition vi := out (V_print int32_print).
Definition vd := out (V_print double_print).
Definition tod (k : Z) : res spec_float := Ok (d k).
Definition IVALS := [1; 2; 3; 4; 5; 6; 7; 8; 9].

(** ** test/vec_test.hpp *)
Definition w5 := final (setEntries_array Ok (Vec_size double_ops 5) (ds IVALS) 5).
Definition w35 := w <- w5 ;; final (setEntries_val Ok w (rat 7 2)).
Example vec_construction : all_pass [
  vi (Ok (Vec_size int32_ops 0)) "()"; vi (Ok (Vec_size int32_ops 5)) "(0, 0, 0, 0, 0)";
  vi (Vec_of_array Ok IVALS 0) "()"; vi (Vec_of_array Ok IVALS 1) "(1)"; vi (Vec_of_array Ok IVALS 2) "(1, 2)"; vi (Vec_of_array Ok IVALS 3) "(1, 2, 3)";
  vi (Vec_of_array Ok IVALS 9) "(1, 2, 3, 4, 5, 6, 7, 8, 9)"; vi (constantVec int32_ops 4 3) "(3, 3, 3, 3)";
  vi (v <- int_of_double (rat 7 2) ;; constantVec int32_ops 4 v) "(3, 3, 3, 3)";
  vd (Vec_of_array tod IVALS 0) "()"; vd (Vec_of_array tod IVALS 1) "(1)"; vd (Vec_of_array tod IVALS 9) "(1, 2, 3, 4, 5, 6, 7, 8, 9)";
  vi (Vec_of_vec Ok [1; 2; 3; 4]) "(1, 2, 3, 4)"; vd (Vec_of_vec tod [1; 2; 3; 4]) "(1, 2, 3, 4)";
  vd w5 "(1, 2, 3, 4, 5)"; vd w35 "(3.5, 3.5, 3.5, 3.5, 3.5)";
  vi (w <- w35 ;; Vec_of_vec int_of_double w) "(3, 3, 3, 3, 3)"; vd (w <- w35 ;; u <- Vec_of_vec int_of_double w ;; Vec_of_vec tod u) "(3, 3, 3, 3, 3)";
  throws InvalidArgument (w <- w35 ;; final (setEntries_array Ok w (ds IVALS) 1))] = true.
Proof. vm_compute. reflexivity. Qed.
Definition v5 := [1; 2; 3; 4; 5].
Definition w_ := [2; 4; 6; 8; 10].
Definition veq (x : res (list Z)) (y : list Z) : res bool := x <- x ;; V_eq int32_ops x y.
Example vec_relational : all_pass [V_eq int32_ops [] []; V_eq int32_ops v5 v5; V_ne int32_ops v5 [1; 2; 3; 4; 5; 6]; V_ne int32_ops v5 [1; 2; 3; 4; -5]] = true.
Proof. vm_compute. reflexivity. Qed.
Example vec_arithmetic : all_pass [
  veq (V_scale int32_ops 2 v5) w_; veq (V_mul int32_ops v5 2) w_; veq (V_div int32_ops w_ 2) v5;
  veq (final (V_mul_assign int32_ops v5 (Val 2))) w_; veq (final (V_div_assign int32_ops w_ (Val 2))) v5;
  veq (V_sub int32_ops v5 v5) [0; 0; 0; 0; 0]; veq (V_add int32_ops v5 v5) w_; veq (V_add int32_ops v5 w_) [3; 6; 9; 12; 15];
  veq (V_add int32_ops w_ v5) [3; 6; 9; 12; 15]; veq (V_sub int32_ops [3; 6; 9; 12; 15] w_) v5;
  throws InvalidArgument (V_add int32_ops v5 [3; 6; 9; 12; 15; 0]); throws InvalidArgument (V_add int32_ops [3; 6; 9; 12; 15; 0] v5);
  veq (final (V_add_assign int32_ops v5 (Some w_))) [3; 6; 9; 12; 15]; veq (final (V_sub_assign int32_ops [3; 6; 9; 12; 15] (Some w_))) v5;
  (k <- dot int32_ops v5 v5 ;; Ok (k =? 55)); (k <- dot int32_ops v5 w_ ;; Ok (k =? 110)); (k <- dot int32_ops w_ v5 ;; Ok (k =? 110));
  (k <- dot int32_ops v5 [0; 0; 0; 0; 0] ;; Ok (k =? 0)); throws InvalidArgument (dot int32_ops [1; 2; 3; 4; 5; 6] v5);
  veq (cross int32_ops [1; 2; 3] [2; 3; 4]) [-1; 2; -1]; veq (cross int32_ops [2; 3; 4] [1; 2; 3]) [1; -2; 1];
  throws InvalidArgument (cross int32_ops [2; 3; 4] [4; 4; 4; 4]); throws InvalidArgument (cross int32_ops [4; 4; 4; 4] [2; 3; 4]);
  (k <- scalar_triple_product int32_ops [1; -3; 2] [3; 7; -5] [4; 1; 6] ;; Ok (k =? 111));
  veq (vector_triple_product int32_ops [1; -3; 2] [3; 7; -5] [4; 1; 6]) [151; 119; 103]] = true.
Proof. vm_compute. reflexivity. Qed.
Definition sqrt30 := SFsqrt 53 1024 (d 30).
Definition feq (x : res spec_float) (y : spec_float) : res bool := x <- x ;; Ok (negb (float_equals x y =? 0)).
Definition str_eq {A} (pr : ostream -> A -> res ostream) (x y : res A) : res bool :=
  x <- x ;; y <- y ;; o <- pr fresh_out x ;; p <- pr fresh_out y ;; Ok (same_text (obuf o) (obuf p)).
Definition v4 := [1; 2; 3; 4].
Definition x4 := map (fun k => SFdiv 53 1024 (d k) sqrt30) v4.
Example vec_norm : all_pass [
  feq (norm_int_double v4) sqrt30; feq (norm_double (ds v4)) sqrt30;
  (a <- norm_int v4 ;; b <- int_of_double sqrt30 ;; Ok (a =? b)); (a <- norm_double_int (ds v4) ;; b <- int_of_double sqrt30 ;; Ok (a =? b));
  str_eq (V_print double_print) (unit_double (ds v4)) (Ok x4); feq (u <- unit_double (ds v4) ;; norm_double u) (d 1);
  veq (unit_int v4) [0; 0; 0; 0]; str_eq (V_print double_print) (unit_int_double v4) (Ok x4); feq (u <- unit_int_double v4 ;; norm_double u) (d 1)] = true.
Proof. vm_compute. reflexivity. Qed.

(** demo/vec_demo.cpp: its transcript *)
Definition vx := constantVec double_ops 3 (rat 5 2).
Definition vy := Vec_of_array Ok [rat (-3) 2; d 2; rat (-5) 2] 3.
Definition vz := final (setEntries_array Ok (Vec_size double_ops 3) (ds [3; -2; 1]) 3).
Definition ix := x <- vx ;; Vec_of_vec int_of_double x.
Definition od (m : res spec_float) (t : string) : res bool := x <- m ;; Ok (same_text (general_text x) (text t)).
Definition b2 {A B C} (op : A -> B -> res C) (p : res A) (q : res B) : res C := p <- p ;; q <- q ;; op p q.
Example vec_demo : all_pass [
  vd (Ok (Vec_size double_ops 3)) "(0, 0, 0)"; vd vx "(2.5, 2.5, 2.5)"; vd vy "(-1.5, 2, -2.5)"; vd vz "(3, -2, 1)"; vi ix "(2, 2, 2)";
  vd (x <- vx ;; V_scale double_ops (rat 7 2) x) "(8.75, 8.75, 8.75)"; vd (x <- vx ;; V_div double_ops x (rat 7 2)) "(0.714286, 0.714286, 0.714286)";
  vd (b2 (V_add double_ops) vx vy) "(1, 4.5, 0)"; vd (b2 (V_sub double_ops) vx vy) "(4, 0.5, 5)";
  vd (b2 (concatenate double_ops) vx vy) "(2.5, 2.5, 2.5, -1.5, 2, -2.5)"; od (b2 (dot double_ops) vx vy) "-5"; vd (b2 (cross double_ops) vx vy) "(-11.25, 2.5, 8.75)";
  od (x <- vx ;; norm_double x) "4.33013"; vd (x <- vx ;; unit_double x) "(0.57735, 0.57735, 0.57735)";
  (i <- ix ;; k <- norm_int i ;; Ok (k =? 3)); od (i <- ix ;; norm_int_double i) "3.4641"; vd (i <- ix ;; unit_int_double i) "(0.57735, 0.57735, 0.57735)";
  od (x <- vx ;; y <- vy ;; z <- vz ;; scalar_triple_product double_ops x y z) "-30";
  vd (x <- vx ;; y <- vy ;; z <- vz ;; vector_triple_product double_ops x y z) "(7.5, 0, -7.5)"] = true.
Proof. vm_compute. reflexivity. Qed.

(** ** test/mat_test.hpp *)
Definition MD := Mat spec_float.
Definition cm (r c : nat) (k : Z) : res MD := Mat_val double_ops r c (d k).
Definition am (l : list spec_float) (r c : nat) : res MD := Mat_array double_ops (map Some l) r c.
Definition im (l : list Z) (r c : nat) : res MD := am (ds l) r c.
(** matrixFloatEquals *)
Definition mfe (x y : res MD) : res bool :=
  x <- x ;; y <- y ;;
  if negb (same_dims x y) then Ok false
  else all_ (rows x) 0 (fun i => all_ (cols x) 0 (fun j => a <- entry x i j ;; b <- entry y i j ;; Ok (negb (float_equals a b =? 0)))).
Definition eqm (x y : res MD) : res bool := b2 (M_eq double_ops) x y.
Definition u1 {A B} (op : A -> res B) (p : res A) : res B := p <- p ;; op p.
Definition as2 (op : MD -> option MD -> outcome MD) (x y : res MD) : res MD := x <- x ;; y <- y ;; final (op x (Some y)).
Definition D := double_ops.
Definition c33 := [9; 2; 3; 1; 7; 6; 6; 8; 5].
Example mat_equality : all_pass [
  eqm (cm 4 4 1) (cm 4 4 1); b2 (M_ne D) (cm 4 4 2) (cm 4 4 3);
  (a <- cm 4 4 4 ;; b <- cm 4 4 4 ;; b <- final (set_entry b 3 3 (d 5)) ;; M_ne D a b);
  b2 (M_ne D) (cm 4 4 5) (cm 4 3 5); b2 (M_ne D) (cm 4 4 5) (cm 3 4 5); b2 (M_ne D) (cm 4 3 5) (cm 3 4 5)] = true.
Proof. vm_compute. reflexivity. Qed.
Example mat_arithmetic : all_pass [
  mfe (u1 (M_neg D) (cm 10 10 5)) (cm 10 10 (-5)); mfe (b2 (M_add D) (cm 10 10 1) (cm 10 10 2)) (cm 10 10 3); throws DomainError (b2 (M_add D) (cm 10 10 1) (cm 9 9 3));
  mfe (as2 (M_add_assign D) (cm 10 10 1) (cm 10 10 2)) (cm 10 10 3); throws DomainError (as2 (M_add_assign D) (cm 10 10 3) (cm 9 9 3));
  mfe (b2 (M_sub D) (cm 10 10 5) (cm 10 10 2)) (cm 10 10 3); mfe (b2 (M_sub D) (cm 10 10 2) (cm 10 10 5)) (u1 (M_neg D) (cm 10 10 3));
  throws DomainError (b2 (M_sub D) (cm 10 10 5) (cm 9 9 3)); mfe (as2 (M_sub_assign D) (cm 10 10 5) (cm 10 10 2)) (cm 10 10 3);
  throws DomainError (as2 (M_sub_assign D) (cm 10 10 3) (cm 9 9 3));
  mfe (u1 (M_scale D (d 6)) (cm 5 10 4)) (cm 5 10 24); mfe (a <- cm 5 10 4 ;; M_scale_r D a (d 6)) (cm 5 10 24); mfe (a <- cm 5 10 24 ;; M_div D a (d 6)) (cm 5 10 4);
  mfe (a <- cm 5 10 24 ;; final (M_div_assign D a (MVal (d 6)))) (cm 5 10 4); mfe (a <- cm 5 10 4 ;; final (M_mul_assign D a (MVal (d 6)))) (cm 5 10 24)] = true.
Proof. vm_compute. reflexivity. Qed.
Definition mul_by (x y : res MD) : res MD := x <- x ;; y <- y ;; final (M_product_assign D x (Some y)).
Example mat_product : all_pass [
  mfe (b2 (M_product D) (cm 2 2 1) (cm 2 2 1)) (cm 2 2 2); mfe (b2 (M_product D) (cm 3 2 2) (cm 2 2 1)) (cm 3 2 4); mfe (b2 (M_product D) (cm 3 2 2) (cm 2 3 4)) (cm 3 3 16);
  mfe (b2 (M_product D) (cm 2 3 4) (cm 3 2 2)) (cm 2 2 24); throws DomainError (b2 (M_product D) (cm 2 2 1) (cm 3 2 2));
  mfe (mul_by (cm 3 2 2) (cm 2 2 1)) (cm 3 2 4); mfe (a <- cm 2 2 1 ;; final (M_product_assign D a None)) (cm 2 2 2); throws DomainError (mul_by (cm 2 2 2) (cm 3 2 4))] = true.
Proof. vm_compute. reflexivity. Qed.
Definition fdet (l : list Z) (k : nat) (r : Z) : res bool := feq (u1 (determinant D) (im l k k)) (d r).
Definition same_d (x : res spec_float) (k : Z) : res bool := x <- x ;; Ok (SFeqb x (d k)).
Definition both_exp (l : list Z) (k : nat) (r : Z) : res bool :=
  both (same_d (u1 (row_cofactor_expansion D) (im l k k)) r) (same_d (u1 (col_cofactor_expansion D) (im l k k)) r).
Example mat_minor : all_pass ((a <- cm 5 5 2 ;; mfe (first_minor D a 0 4) (cm 4 4 2)) ::
  map (fun p => c <- im c33 3 3 ;; mfe (first_minor D c 0 (fst p)) (im (snd p) 2 2))
    [(0%nat, [7; 6; 8; 5]); (1%nat, [1; 6; 6; 5]); (2%nat, [1; 7; 6; 8])]) = true.
Proof. vm_compute. reflexivity. Qed.
Example mat_determinant : all_pass [
  fdet [3] 1 3; fdet [1; 3; 2; 4] 2 (-2); fdet c33 3 (-157); fdet [0; 6; 0; 3; 0; 5; 0; 7; 0] 3 0;
  both_exp [3] 1 3; both_exp [1; 3; 2; 4] 2 (-2); both_exp c33 3 (-157); both_exp [0; 6; 0; 3; 0; 5; 0; 7; 0] 3 0;
  both_exp [3; 7; -1; 6; 4; 7; 2; 4; 9; 9; 2; 3; 6; 7; 2; 3] 4 21] = true.
Proof. vm_compute. reflexivity. Qed.
Definition z33 := [1; 2; 3; 4; 3; 4; 5; 6; 5].
Example mat_rref_inverse : all_pass [
  mfe (u1 (rref D) (cm 3 3 5)) (im [1; 1; 1; 0; 0; 0; 0; 0; 0] 3 3);
  mfe (u1 (rref D) (im [1; 2; -1; -4; 2; 3; -1; -11; -2; 0; -3; 22] 3 4)) (im [1; 0; 0; -8; 0; 1; 0; 1; 0; 0; 1; -2] 3 4);
  mfe (u1 (inverse D) (cm 1 1 5)) (am [rat 1 5] 1 1); mfe (u1 (inverse D) (im [4; 3; 3; 2] 2 2)) (im [-2; 3; 3; -4] 2 2);
  mfe (u1 (inverse D) (im [1; 2; 3; 0; 1; 4; 5; 6; 0] 3 3)) (im [-24; 18; 5; 20; -15; -4; -5; 4; 1] 3 3);
  throws DomainError (u1 (inverse D) (cm 3 3 3));
  mfe (u1 (inverse D) (im z33 3 3)) (am [rat (-1) 2; rat 4 9; rat (-1) 18; d 0; rat (-5) 9; rat 4 9; rat 1 2; rat 2 9; rat (-5) 18] 3 3);
  mfe (u1 (transpose D) (im [1; 2; 3; 4; 5; 6; 5; 4; 3; 2] 2 5)) (im [1; 6; 2; 5; 3; 4; 4; 3; 5; 2] 5 2);
  same_d (u1 (trace D) (cm 3 3 3)) 9; same_d (u1 (trace D) (identityMatrix D 10)) 10; same_d (u1 (trace D) (im z33 3 3)) 9] = true.
Proof. vm_compute. reflexivity. Qed.

(** demo/mat_demo.cpp: its transcript *)
Definition NL := String NEWLINE EmptyString.
Definition mo (m : res MD) (l : list string) : res bool := out (M_print D double_print) m (String.concat NL l).
Definition x_vals := ds [1; 2; 3; 4; 3; 4; 5; 6; 5; 6; 7; 8].
Definition mx := final (setEntries_ptr (Mat_new D 3 4) (map Some x_vals) 12).
Definition mz := final (setEntries_ptr (Mat_new D 3 3) (map Some x_vals) 12).
Definition my := cm 4 3 5.
Example mat_demo : all_pass [
  mo mx ["1 2 3 4 "; "3 4 5 6 "; "5 6 7 8 "]%string; mo my ["5 5 5 "; "5 5 5 "; "5 5 5 "; "5 5 5 "]%string; mo mz ["1 2 3 "; "4 3 4 "; "5 6 5 "]%string;
  mo (b2 (M_product D) mx my) ["50 50 50 "; "90 90 90 "; "130 130 130 "]%string; mo (u1 (M_scale D (d 3)) my) ["15 15 15 "; "15 15 15 "; "15 15 15 "; "15 15 15 "]%string;
  od (u1 (trace D) mz) "9"; od (u1 (determinant D) mz) "18";
  mo (u1 (inverse D) mz) ["-0.5 0.444444 -0.0555556 "; "0 -0.555556 0.444444 "; "0.5 0.222222 -0.277778 "]%string;
  mo (u1 (rref D) mx) ["1 0 -1 -2 "; "-0 1 2 3 "; "0 0 0 0 "]%string] = true.
Proof. vm_compute. reflexivity. Qed.
