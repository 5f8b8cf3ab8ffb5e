(** C112: a double, a Vec<double> and a Mat<double> inserted into a stream with any
    floating-point flags. Specification: FloatSpec.v. *)
From Coq Require Import Ascii String List QArith SpecFloat.
From Verif Require Import Base IntBasics FracModel FracSpec IOModel IOSpec CommonSpec FlagsModel ElemModel ElemSpec VecModel MatModel MatSpec DoubleModel PieceModel FormatSpec FloatModel FloatSpec FloatProofs.
Import ListNotations.
Local Open Scope list_scope.
Local Open Scope Z_scope.
Local Notation str := list_ascii_of_string.

(** Every double is written as the flags ask, filled up to the width, which is then 0. *)
Theorem C112_double : forall fl ff o d, double d -> exists t u,
  float_with fl ff d t /\ padded fl ff d (owidth o) (ofill o) t u /\ float_insert fl ff o d = mkOut (obuf o ++ u) 0 (ofill o).
Proof.
  intros fl ff o d H. destruct (float_insert_padded fl ff o d _ eq_refl H) as (u & E & P). exists (float_text fl ff d), u. split; [apply float_text_ok, H|]. split; auto.
Qed.
(** The specification determines the text. *)
Theorem C112_unique : forall fl ff d t u, float_with fl ff d t -> float_with fl ff d u -> t = u.
Proof. exact float_unique. Qed.
(** With default flags these are the insertions of C97. *)
Theorem C112_default : forall o,
  (forall d, float_insert (mkFlags Dec Right false false false) (mkFloat General 6 false) o d = double_print o d) /\
  (forall x, V_print double_print o x = Ok (vec_insert (mkFlags Dec Right false false false) (mkFloat General 6 false) o x)) /\
  (forall m r c g, mat_of eq m r c g -> M_print double_ops double_print o m = Ok (mat_insert (mkFlags Dec Right false false false) (mkFloat General 6 false) r c g o)).
Proof. intros o. exact (conj (default_insert o) (conj (default_vec o) (default_mat o))). Qed.
(** The text Frac::from_double parses. *)
Theorem C112_fixed : forall x p, fixed_stream x p = fixed_text x (if p <? 0 then 6 else p).
Proof. exact fixed_stream_ok. Qed.

(** Only the opening parenthesis takes the width; the elements follow the flags. *)
Theorem C112_vec : forall fl ff o x, Forall double x -> exists t,
  let pad := repeat (ofill o) (Z.to_nat (owidth o) - 1) in
  vec_insert fl ff o x = mkOut (obuf o ++ match adjust fl with Left => "("%char :: pad | _ => pad ++ ["("%char] end ++ separated t ++ [")"%char]) 0 (ofill o) /\
  Forall2 (float_with fl ff) x t.
Proof.
  intros fl ff o x Hx. exists (map (float_text fl ff) x). split.
  - rewrite vec_insert_ok. cbn [put_str obuf length]. rewrite <- app_assoc. destruct (adjust fl); reflexivity.
  - induction Hx; constructor; auto using float_text_ok.
Qed.
(** Only the first entry takes the width. *)
Theorem C112_mat : forall fl ff o r c g, (forall i j, (i < r)%nat -> (j < c)%nat -> double (g i j)) -> exists t u,
  obuf (mat_insert fl ff r c g o) = obuf o ++ mat_text r c (fun i j => if ((i =? 0) && (j =? 0))%nat then u else t i j) /\
  (forall i j, (i < r)%nat -> (j < c)%nat -> float_with fl ff (g i j) (t i j)) /\
  ((0 < r)%nat -> (0 < c)%nat -> padded fl ff (g 0 0)%nat (owidth o) (ofill o) (t 0 0)%nat u).
Proof.
  intros fl ff o r c g H. exists (fun i j => float_text fl ff (g i j)).
  assert (X : exists u, float_insert fl ff o (g 0 0)%nat = mkOut (obuf o ++ u) 0 (ofill o)) by (eexists; reflexivity). destruct X as [u U].
  exists u. split; [apply mat_insert_ok, U|]. split; [intros i j Hi Hj; apply float_text_ok; auto|]. intros Hr Hc.
  destruct (float_insert_padded fl ff o (g 0 0)%nat _ eq_refl (H _ _ Hr Hc)) as (u' & E & P). rewrite U in E. injection E as E. apply app_inv_head in E. subst u'. exact P.
Qed.

Definition d (n e : Z) : spec_float := binary_normalize 53 1024 n e false.
Definition quot (n k : Z) : spec_float := SFdiv 53 1024 (double_of_int n) (double_of_int k).
Definition plainly (ff : float_flags) (x : spec_float) : chars := float_text (mkFlags Dec Right false false false) ff x.
(** the four notations; ties; rounding into the next decade; zeros kept or dropped;
    points kept or dropped; a negative precision *)
Example C112_ex_notation :
  map (plainly (mkFloat General 3 false)) [quot 1 3; d 1000 0; quot 9996 10; d 999 0; quot 1 10000; quot 1 100000; d 100 0] = map str ["0.333"; "1e+03"; "1e+03"; "999"; "0.0001"; "1e-05"; "100"]%string /\
  map (plainly (mkFloat General 3 true)) [d 1 0; d 999 0; d 1000 0; d 1 (-1); S754_zero true] = map str ["1.00"; "999."; "1.00e+03"; "0.500"; "-0.00"]%string /\
  map (plainly (mkFloat General 0 false)) [quot 25 10; d 15 0; d 9 0] = map str ["2"; "2e+01"; "9"]%string /\
  map (plainly (mkFloat Fixed 2 false)) [quot 2 3; d 1 (-3); d 3 (-3); quot (-999) 1000; S754_zero false] = map str ["0.67"; "0.12"; "0.38"; "-1.00"; "0.00"]%string /\
  map (plainly (mkFloat Fixed 0 true)) [d 5 (-1); d 7 (-1); S754_zero true] = map str ["2."; "4."; "-0."]%string /\
  map (plainly (mkFloat Fixed (-5) false)) [d 1 0] = map str ["1.000000"]%string /\
  map (plainly (mkFloat Scientific 2 false)) [quot 2 3; d 1 300; d 999999 0; S754_zero false; S754_infinity true; S754_nan] = map str ["6.67e-01"; "2.04e+90"; "1.00e+06"; "0.00e+00"; "-inf"; "nan"]%string /\
  map (plainly (mkFloat Scientific 0 true)) [d 15 0; d 25 0] = map str ["2.e+01"; "2.e+01"]%string /\
  map (plainly (mkFloat Hexfloat 3 false)) [d 1 0; quot 1 10; d (-3) (-1); S754_finite false 1 (-1074); S754_zero false; d 1 (-1022)] =
    map str ["0x1p+0"; "0x1.999999999999ap-4"; "-0x1.8p+0"; "0x0.0000000000001p-1022"; "0x0p+0"; "0x1p-1022"]%string.
Proof. vm_compute. splits; reflexivity. Qed.
(** sign, capitals, and padding on either side or inside *)
Example C112_ex_padding :
  map (fun fl => obuf (float_insert fl (mkFloat Scientific 1 false) (mkOut [] 9 "*"%char) (d 3 0)))
      [mkFlags Hex Right true false true; mkFlags Dec Left false true false; mkFlags Oct Internal true false false; mkFlags Dec Internal false false true] =
    map str ["*+3.0E+00"; "3.0e+00**"; "+*3.0e+00"; "**3.0E+00"]%string /\
  map (fun x => obuf (float_insert (mkFlags Dec Internal false false true) (mkFloat Hexfloat 1 true) (mkOut [] 9 "_"%char) x)) [d 5 0; d (-5) 0; S754_infinity false; S754_infinity true; S754_zero false] =
    map str ["0X_1.4P+2"; "-0X1.4P+2"; "______INF"; "-_____INF"; "0X__0.P+0"]%string.
Proof. vm_compute. split; reflexivity. Qed.
Example C112_ex_containers :
  obuf (vec_insert (mkFlags Dec Internal true false false) (mkFloat Fixed 1 false) (mkOut (str "v=") 4 "."%char) [d 1 0; quot (-1) 4; S754_zero false]) = str "v=...(+1.0, -0.2, +0.0)" /\
  obuf (mat_insert (mkFlags Dec Internal true false false) (mkFloat Fixed 1 false) 2 2 (fun i j => d (Z.of_nat i - Z.of_nat j) 0) (mkOut (str "m=") 6 "."%char)) =
    str "m=+..0.0 -1.0 " ++ [NEWLINE] ++ str "+1.0 +0.0 ".
Proof. vm_compute. split; reflexivity. Qed.
Print Assumptions C112_double.
Print Assumptions C112_unique.
Print Assumptions C112_default.
Print Assumptions C112_fixed.
Print Assumptions C112_vec.
Print Assumptions C112_mat.
