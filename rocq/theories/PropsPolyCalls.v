(** Property theorems: C109, programs of calls of Factor, Term and Poly. *)
From Coq Require Import Ascii String QArith List.
From Verif Require Import Base IntModel IntSpec IntBasics FracModel FracSpec FracProofs IOModel ElemModel PolyModel PolySpec PolyProofs PolyCalls PolyCallProofs.
From Verif Require Import PropsFrac PropsPoly.
Local Open Scope Z_scope.
Local Open Scope list_scope.

(** ** C109 *)
(** One call on objects with meaning m: the objects then have the meaning the call gives; or the
    call stopped, with undefined behaviour only in looking for a place in a Poly, at an assertion
    only in arithmetic on coefficients. *)
Theorem C109_call : forall s m c, stands s m -> args_ok c ->
  match run_call s c with
  | Ok s' => stands s' (means m c)
  | UB => adds c = true
  | Abort => computes c = true
  | Throw _ | OutOfFuel => False
  end.
Proof. exact call_fits. Qed.
(** Any program. *)
Theorem C109_program : forall l s m, stands s m -> Forall args_ok l ->
  match run_calls s l with
  | Ok s' => stands s' (means_all m l)
  | UB => exists c, In c l /\ adds c = true
  | Abort => exists c, In c l /\ computes c = true
  | Throw _ | OutOfFuel => False
  end.
Proof. exact calls_fit. Qed.
(** A program that only makes objects and multiplies by factors always finishes. *)
Theorem C109_finishes : forall l s m, stands s m -> Forall args_ok l -> Forall (fun c => adds c = false /\ computes c = false) l ->
  exists s', run_calls s l = Ok s' /\ stands s' (means_all m l).
Proof.
  intros l s m St Ha Hn. pose proof (calls_fit l s m St Ha) as H. rewrite Forall_forall in Hn.
  destruct (run_calls s l) as [s'| | | |]; try contradiction; [eauto| |]; destruct H as (c & I & E); destruct (Hn c I); congruence.
Qed.

(** Every Factor x, every Term and Poly (1/2) x. *)
Definition start : objects := mkObjects (fun _ => fx 1) (fun _ => xs (fr 1 2) 1) (fun _ => [xs (fr 1 2) 1]).
Definition start_means : meaning := mkMeaning (fun _ => (nm "x", 1)) (fun _ => (1 # 2, fun rho => rho (nm "x")))%Q (fun _ rho => (1 # 2) * rho (nm "x"))%Q.
Example C109_start : stands start start_means.
Proof.
  assert (T1 : term_ok (xs (fr 1 2) 1)) by ext.
  assert (P1 : forall rho, Qpower (rho (nm "x")) (val (i 1)) == rho (nm "x")) by (intros rho; replace (val (i 1)) with 1 by (vm_compute; reflexivity); reflexivity).
  assert (H12 : Fval (fr 1 2) == 1 # 2) by (vm_compute; reflexivity).
  split; [|split]; intros a; cbn [start start_means F T P mF mT mP fst snd].
  - split; [unfold factor_ok; exc|reflexivity].
  - split; [exact T1|]. split; [exact H12|]. intros rho _. cbn [xs factors map snd fsval fold_right]. unfold fval. cbn [fx fid power]. rewrite P1. ring.
  - split; [constructor; [exact T1|constructor]|]. intros rho _. cbn [pval fold_right]. unfold tval. cbn [xs coeff factors map snd fsval fold_right]. unfold fval. cbn [fx fid power].
    rewrite P1. rewrite H12. ring.
Qed.
(** f1 = y^-3; t1 = (2/3) x^5; t1 *= f1; t1 *= t1; p0 = t1 - t0; p0 += f0; t0.coefficient() = 7. *)
Definition prog : list pcall := [FactorNew 1 (nm "y") (i (-3)); FactorNew 2 (nm "x") (i 5); TermCoeff 1 (fr 2 3) 2; MulAssignF 1 1; MulAssignT 1 1;
  SubTT 0 1 0; AddAssign 0 0; SetCoeff 0 (fr 7 1)].
Example C109_ex : match run_calls start prog with
  | Ok s => T s 1%nat = xy (fr 4 9) 10 (-6) /\ T s 0%nat = xs (fr 7 1) 1 /\ P s 0%nat = [xs (fr 1 2) 1; xy (fr 4 9) 10 (-6)]
  | _ => False
  end.
Proof. vm_compute. auto. Qed.
Example C109_ex_args : Forall args_ok prog.
Proof. unfold prog. repeat (constructor; [cbn [args_ok]; first [exact I | exc | exr]|]). constructor. Qed.
Example C109_ex_means : mP (means_all start_means prog) 0%nat (fun _ => 2)%Q == (4 # 9) * (2 ^ 10 * 2 ^ (-6)) - (1 # 2) * 2 + 2.
Proof. vm_compute. reflexivity. Qed.
(** The same program with the sum the other way round stops with undefined behaviour. *)
Example C109_ex_stops : run_calls start [FactorNew 1 (nm "y") (i 3); MulAssignF 1 1; AddTT 0 0 1] = UB /\ adds (AddTT 0 0 1) = true.
Proof. vm_compute. auto. Qed.
Print Assumptions C109_call.
Print Assumptions C109_program.
Print Assumptions C109_finishes.
