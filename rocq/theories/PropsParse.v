(** C105: parse_int, the helper that reads one bin's worth of digits. *)
From Coq Require Import Ascii String ZifyBool.
From Verif Require Import Base IntModel IntSpec IntBasics IOModel IOSpec IOProofs PropsIO.
Local Open Scope list_scope.

Lemma take_digits_spec n : forall ss, exists d r, take_digits n ss = (d, r) /\ ss = d ++ r /\ digits d /\ (length d <= n)%nat /\
  (length d = n \/ match r with [] => True | c :: _ => isdigit c = false end).
Proof.
  induction n as [|n IH]; intros ss.
  - exists [], ss. cbn. splits; auto. constructor.
  - destruct ss as [|c ss]; cbn [take_digits].
    + exists [], []. splits; cbn; auto; [constructor|lia].
    + destruct (isdigit c) eqn:E.
      * destruct (IH ss) as (d & r & -> & -> & D & L & M). exists (c :: d), r. splits; cbn; auto; [constructor; auto|lia|].
        destruct M as [M|M]; auto.
      * exists [], (c :: ss). splits; cbn; auto; [constructor|lia].
Qed.

(** It takes the longest run of at most [k] digits, and fails exactly when there is
    no digit or when the digits taken denote more than INT32_MAX. *)
Definition run_of_digits (ss : list ascii) (k : Z) (d r : list ascii) : Prop :=
  ss = d ++ r /\ (forall c, In c d -> digit_of c <> None) /\ Z.of_nat (List.length d) <= Z.max k 0 /\
  (Z.of_nat (List.length d) = Z.max k 0 \/ ends_numeral r).
Lemma digit_of_isdigit c : digit_of c <> None <-> isdigit c = true.
Proof. rewrite digit_of_spec. destruct (isdigit c); split; congruence. Qed.

Theorem C105_parse_int : forall ss k, exists d r, run_of_digits ss k d r /\
  ((exists v, numeral d v /\ v <= INT32_MAX /\ parse_int ss k = Ok (v, r)) \/
   ((d = [] \/ exists v, numeral d v /\ INT32_MAX < v) /\ parse_int ss k = Throw InvalidArgument)).
Proof.
  intros ss k. destruct (take_digits_spec (Z.to_nat k) ss) as (d & r & E & S & D & L & M).
  exists d, r. split.
  - unfold run_of_digits. splits; auto; try lia.
    + intros c Hc. apply digit_of_isdigit. unfold digits in D. rewrite Forall_forall in D. auto.
    + destruct M as [M|M]; [left; lia|right]. destruct r as [|c r]; [exact I|]. cbn. rewrite digit_of_spec, M. reflexivity.
  - unfold parse_int. rewrite E. destruct d as [|c d]; [right; cbn; auto|].
    assert (N : numeral (c :: d) (nv 0 (c :: d))) by (apply numeral_iff; splits; auto; discriminate).
    unfold extract_int32. change (fold_left _ (c :: d) 0) with (nv 0 (c :: d)).
    destruct (Z.leb_spec (nv 0 (c :: d)) INT32_MAX).
    + left. exists (nv 0 (c :: d)). auto.
    + right. split; [right; eauto|reflexivity].
Qed.
(** The run of digits is determined by the text. *)
Theorem C105_run_unique : forall ss k d r d' r', run_of_digits ss k d r -> run_of_digits ss k d' r' -> d = d' /\ r = r'.
Proof.
  assert (G : forall d r d' r', d ++ r = d' ++ r' -> (forall c, In c d -> digit_of c <> None) -> (forall c, In c d' -> digit_of c <> None) ->
    forall k, Z.of_nat (List.length d) <= k -> Z.of_nat (List.length d') <= k ->
    (Z.of_nat (List.length d) = k \/ ends_numeral r) -> (Z.of_nat (List.length d') = k \/ ends_numeral r') -> d = d' /\ r = r').
  { induction d as [|c d IH]; intros r d' r' E D D' k L L' M M'.
    - destruct d' as [|c' d']; [auto|]. cbn [app] in E. subst r. exfalso. cbn [List.length] in *.
      destruct M as [M|M]; [lia|]. cbn in M. apply (D' c'); [left; auto|exact M].
    - destruct d' as [|c' d'].
      + cbn [app] in E. subst r'. exfalso. cbn [List.length] in *.
        destruct M' as [M'|M']; [lia|]. cbn in M'. apply (D c); [left; auto|exact M'].
      + cbn [app] in E. injection E as -> E. cbn [List.length] in *.
        destruct (IH r d' r' E (fun c Hc => D c (or_intror Hc)) (fun c Hc => D' c (or_intror Hc)) (k - 1)) as [-> ->]; auto; try lia.
        * destruct M; [left; lia|auto].
        * destruct M'; [left; lia|auto]. }
  intros ss k d r d' r' (-> & D & L & M) (E & D' & L' & M'). eapply G; eauto.
Qed.
(** As Int::read calls it -- at most nine digits, all of them there -- it does not throw. *)
Theorem C105_in_read : forall ss k, 1 <= k <= 9 -> k <= Z.of_nat (List.length ss) ->
  (forall c, In c (firstn (Z.to_nat k) ss) -> digit_of c <> None) ->
  exists v, numeral (firstn (Z.to_nat k) ss) v /\ 0 <= v < 10 ^ k /\ parse_int ss k = Ok (v, skipn (Z.to_nat k) ss).
Proof.
  intros ss k Hk Hl D.
  assert (Hd : digits (firstn (Z.to_nat k) ss)).
  { apply Forall_forall. intros c Hc. apply digit_of_isdigit. auto. }
  destruct (parse_int_ok ss k Hd Hk Hl) as [E V]. eexists. splits; [|apply V|apply V|exact E].
  apply numeral_iff. splits; auto. intros F. apply (f_equal (@List.length _)) in F. rewrite firstn_length_le in F by lia. cbn in F. lia.
Qed.
Example C105_ex : parse_int (str "0123456789x") 9 = Ok (12345678, str "9x") /\ parse_int (str "12-3") 9 = Ok (12, str "-3") /\
  parse_int (str "2147483647") 10 = Ok (2147483647, []) /\ parse_int (str "2147483648") 10 = Throw InvalidArgument /\
  parse_int (str "-1") 9 = Throw InvalidArgument /\ parse_int (str "7") 0 = Throw InvalidArgument.
Proof. vm_compute. repeat split. Qed.
Print Assumptions C105_parse_int.
Print Assumptions C105_run_unique.
Print Assumptions C105_in_read.
