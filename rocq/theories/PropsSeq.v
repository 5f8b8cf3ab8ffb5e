(** Property theorems C99: extracting several Ints from one stream. *)
From Coq Require Import Ascii String ZifyBool.
From Verif Require Import Base CommonSpec IntModel IntSpec IntBasics IOModel IOSpec IOProofs SeqModel SeqProofs.
From Verif Require PropsIO.
Open Scope list_scope.
Local Notation str := list_ascii_of_string.

(** in >> a >> b reads back two numbers written with a separator: false, since
    operator>> does not skip white space *)
Theorem C99_separated_refuted : exists x y c a b s, canonical x /\ canonical y /\ c = " "%char /\
  extract_all (istream_of (Int_to_string x ++ c :: Int_to_string y)) [a; b] = Ok (s, [x; b]) /\ b <> y /\
  fail s = true /\ rest s = c :: Int_to_string y.
Proof.
  exists (mkInt [1] false), (mkInt [2] false), " "%char, (mkInt [7] false), (mkInt [8] false). eexists.
  split; [PropsIO.exc|]. split; [PropsIO.exc|]. split; [reflexivity|]. split; [vm_compute; reflexivity|]. split; [discriminate|]. split; reflexivity.
Qed.
(** this is so for all numbers and all separators but a minus sign *)
Theorem C99_separated_fails : forall x c r a b, canonical x -> digit_of c = None -> c <> "-"%char -> exists s,
  extract_all (istream_of (Int_to_string x ++ c :: r)) [a; b] = Ok (s, [x; b]) /\ fail s = true /\ rest s = c :: r.
Proof. exact separated_fails. Qed.
(** whatever the text and however many numbers are asked for, nothing worse than
    failbit happens: the first objects receive the numbers the text starts with, the
    others keep their values, and the stream has failed iff there are such others *)
Theorem C99_any_text : forall t l, exists s ps ys,
  extract_all (istream_of t) l = Ok (s, ys ++ skipn (List.length ys) l) /\
  t = concat ps ++ rest s /\ Forall2 (fun p y => int_text p (val y) /\ canonical y) ps ys /\
  (List.length ys <= List.length l)%nat /\ (fail s = true <-> (List.length ys < List.length l)%nat).
Proof. intros t l. exact (extract_total l (istream_of t) (or_introl eq_refl)). Qed.
(** numbers written without separators are read back iff all but the first are negative *)
Theorem C99_adjacent : forall l init, Forall canonical l -> List.length init = List.length l ->
  ((exists s, extract_all (istream_of (flat_map Int_to_string l)) init = Ok (s, l) /\ fail s = false) <->
   Forall (fun x => val x < 0) (tl l)).
Proof. exact adjacent_iff. Qed.
(** space, tab, line feed, vertical tab, form feed, carriage return *)
Definition white (c : ascii) : Prop := In (nat_of_ascii c) [32; 9; 10; 11; 12; 13]%nat.
Lemma isspace_white c : isspace c = true <-> white c.
Proof. unfold isspace, white, code, nat_of_ascii. cbn [In]. lia. Qed.
(** std::ws takes exactly the white space at the front and sets no bit but eofbit,
    and that iff nothing else is left *)
Theorem C99_ws_takes : forall w t, Forall white w -> match t with [] => True | c :: _ => ~ white c end ->
  ws (istream_of (w ++ t)) = mkIn t (rev w) (match t with [] => true | _ => false end) false false.
Proof.
  intros w t W T. unfold ws, istream_of. cbn [rest back eofbit failbit badbit].
  rewrite (skip_space_ok w t []).
  - rewrite app_nil_r. reflexivity.
  - eapply Forall_impl; [|exact W]. intros c. apply isspace_white.
  - destruct t as [|c t]; [exact I|]. destruct (isspace c) eqn:E; [|reflexivity]. exfalso. apply T, isspace_white, E.
Qed.
(** with white space between them they are read back if it is skipped explicitly *)
Theorem C99_ws_partial : forall (l : list (chars * Int)) init, Forall (fun p => canonical (snd p)) l ->
  Forall (fun p => Forall white (fst p)) l -> Forall (fun p => fst p <> []) (tl l) -> List.length init = List.length l ->
  exists s, extract_ws (istream_of (flat_map (fun p => fst p ++ Int_to_string (snd p)) l)) init = Ok (s, map snd l) /\ fail s = false /\ rest s = [].
Proof.
  intros l init C W N L. apply spaced_all; auto. eapply Forall_impl; [|exact W]. intros p Hp.
  eapply Forall_impl; [|exact Hp]. intros c. apply isspace_white.
Qed.
(** ws at the end of the characters leaves a stream that the next extraction finds at its end *)
Example C99_ex_ws : let s := ws (istream_of [ascii_of_nat 9; ascii_of_nat 13; ascii_of_nat 12]) in
  (rest s, eofbit s, fail s) = ([], true, false) /\
  ws (istream_of [ascii_of_nat 8]) = istream_of [ascii_of_nat 8] /\ ws (istream_of [ascii_of_nat 14]) = istream_of [ascii_of_nat 14] /\
  extract_ws (istream_of ([ascii_of_nat 9; "5"%char; ascii_of_nat 13; ascii_of_nat 11; "-"%char; "6"%char])) [Int_default; Int_default]
  = Ok (mkIn [] [ "6"%char; "-"%char; ascii_of_nat 11; ascii_of_nat 13; "5"%char; ascii_of_nat 9] true false false, [mkInt [5] false; mkInt [6] true]).
Proof. vm_compute. auto. Qed.

Example C99_ex :
  let k n s := mkInt [n] s in let init := [k 0 false; k 0 false; k 9 false] in
  extract_all (istream_of (str "12-3-4")) init = Ok (mkIn [] (rev (str "12-3-4")) true false false, [k 12 false; k 3 true; k 4 true]) /\
  extract_all (istream_of (str "12-3x4")) init = Ok (mkIn (str "x4") (rev (str "12-3")) false true false, [k 12 false; k 3 true; k 9 false]) /\
  extract_all (istream_of (str "12-3-")) init = Ok (mkIn (str "-") (rev (str "12-3")) false true false, [k 12 false; k 3 true; k 9 false]) /\
  extract_ws (istream_of (str "12 -3 4")) init = Ok (mkIn [] (rev (str "12 -3 4")) true false false, [k 12 false; k 3 true; k 4 false]).
Proof. vm_compute. auto. Qed.
Print Assumptions C99_separated_refuted.
Print Assumptions C99_separated_fails.
Print Assumptions C99_any_text.
Print Assumptions C99_adjacent.
Print Assumptions C99_ws_takes.
Print Assumptions C99_ws_partial.
