(** operator<< for matrices (src/Mat.hpp:96-105), constructors and comparisons *)
From Coq Require Import Ascii.
From Verif Require Import Base IntModel IOModel ElemModel ElemSpec ElemProofs VecModel MatModel MatSpec MatProofs.
Local Open Scope nat_scope.
Local Open Scope list_scope.

Lemma put_plain o s : owidth o = 0%Z -> obuf (put o s) = obuf o ++ s /\ owidth (put o s) = 0%Z.
Proof. destruct o as [b w f]. cbn. intros ->. split; reflexivity. Qed.
Lemma joined_flat (f : nat -> list ascii) n : forall a,
  joined (map f (seq a n)) = flat_map (fun k => f k ++ (if k <? a + n - 1 then [NEWLINE] else [])) (seq a n).
Proof.
  induction n as [|n IH]; intros a; [reflexivity|]. cbn [seq map flat_map]. destruct n as [|n].
  - cbn [seq map joined flat_map]. destruct (Nat.ltb_spec a (a + 1 - 1)); [lia|]. rewrite !app_nil_r. reflexivity.
  - change (joined (f a :: map f (seq (S a) (S n)))) with (f a ++ [NEWLINE] ++ joined (map f (seq (S a) (S n)))).
    rewrite IH. destruct (Nat.ltb_spec a (a + S (S n) - 1)); [|lia]. rewrite <- app_assoc. do 2 f_equal.
    apply flat_map_ext. intros k. replace (S a + S n - 1) with (a + S (S n) - 1) by lia. reflexivity.
Qed.
Section Print.
Context {T A : Type} (E : ops T) (R : T -> A -> Prop) (pr : ostream -> T -> ostream) (txt : A -> list ascii).
Hypothesis Hpr : forall o x a, R x a -> owidth o = 0%Z -> obuf (pr o x) = obuf o ++ txt a /\ owidth (pr o x) = 0%Z.
Lemma M_print_ok o m r c g : mat_of R m r c g -> owidth o = 0%Z ->
  exists o', M_print E pr o m = Ok o' /\ owidth o' = 0%Z /\ obuf o' = obuf o ++ mat_text r c (fun i j => txt (g i j)).
Proof.
  intros Hm Ho. unfold M_print.
  destruct (ret_False _ _ (Mat_copy_ok E never R m r c g Hm)) as (d & -> & Hd). cbn [bind].
  destruct (mat_of_dims R d r c g Hd) as (-> & -> & _). apply ret_False. apply ret_final.
  set (line i := row_text c (fun j => txt (g i j))).
  eapply sret_mono.
  - apply (sret_for never (fun i o2 => owidth o2 = 0%Z /\
      obuf o2 = obuf o ++ flat_map (fun k => line k ++ (if k <? r - 1 then [NEWLINE] else [])) (seq 0 i)) r 0).
    + split; auto. cbn. rewrite app_nil_r. reflexivity.
    + intros i o1 Hi [W1 B1]. eapply sret_andthen.
      * apply (sret_for never (fun j o2 => owidth o2 = 0%Z /\ obuf o2 = obuf o1 ++ row_text j (fun j => txt (g i j))) c 0).
        -- split; auto. cbn. rewrite app_nil_r. reflexivity.
        -- intros j o2 Hj [W2 B2]. eapply sret_eval; [apply (entry_of never R d r c g i j); auto; lia|]. intros x Hx. cbn beta in Hx.
           destruct (Hpr o2 x (g i j) Hx W2) as [B3 W3]. destruct (put_plain _ [" "%char] W3) as [B4 W4].
           apply sret_done. split; auto. rewrite B4, B3, B2. unfold row_text. rewrite (seq_S j), Nat.add_0_l, flat_map_app. cbn [flat_map].
           rewrite app_nil_r, <- !app_assoc. reflexivity.
      * intros o2 [W2 B2]. rewrite Nat.add_0_l in B2. change (1 + i) with (S i). rewrite (seq_S i), Nat.add_0_l, flat_map_app. cbn [flat_map].
        destruct (i <? r - 1); apply sret_done; (split; [exact W2|]); cbn [obuf]; rewrite B2, B1, ?app_nil_r, <- !app_assoc; reflexivity.
  - intros o2 [W2 B2]. split; auto. rewrite B2. unfold mat_text. f_equal. fold line.
    rewrite (joined_flat line r 0). rewrite !Nat.add_0_l. reflexivity.
Qed.
End Print.

Section More.
Context {T A : Type} (E : ops T) (ab : halt -> Prop) (R : T -> A -> Prop).
Lemma M_assign_ok this a r c g : mat_of R (rd this a) r c g -> sret ab (M_assign E this a) (fun d => mat_of R d r c g).
Proof.
  intros H. unfold M_assign. destruct (Mat_copy_ok E ab R _ r c g H) as [(d & -> & Hd)|(hh & Hab & ->)]; [apply sret_done, Hd|destruct hh; apply (sret_stop ab this _ _ Hab)].
Qed.
Lemma setEntries_bad (m : Mat T) vals size r c : dims m r c -> size < r * c -> setEntries_ptr m vals size = (m, Throw DomainError).
Proof. intros (Dr & Dc & _) H. unfold setEntries_ptr. rewrite Dr, Dc. destruct (Nat.ltb_spec size (r * c)); [reflexivity|lia]. Qed.
Lemma cofactor_ok (fneg : A -> A) m r c g i j : (forall x a, R x a -> ret ab (neg E x) (fun z => R z (fneg a))) ->
  mat_of R m r c g -> 0 < r -> 0 < c ->
  ret ab (cofactor E m i j) (fun d => mat_of R d (r - 1) (c - 1) (fun a b =>
    if Nat.odd (i + j) then fneg (g (skip i a) (skip j b)) else g (skip i a) (skip j b))).
Proof.
  intros Hn Hm Hr Hc. unfold cofactor. eapply ret_bind; [apply (first_minor_ok E ab R m r c g i j); auto|]. intros d Hd. cbn beta in Hd.
  replace ((i + j) mod 2 =? 1) with (Nat.odd (i + j)).
  - destruct (Nat.odd (i + j)); [apply (M_neg_ok E ab R fneg d _ _ _ Hn Hd)|apply ret_ok, Hd].
  - rewrite <- Nat.bit0_mod, Nat.bit0_odd. destruct (Nat.odd (i + j)); reflexivity.
Qed.
End More.
