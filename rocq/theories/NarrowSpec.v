(** Vocabulary for C127. Independent of the code. *)
From Coq Require Import ZArith List Ascii.
From Verif Require Import Base IntModel IntSpec IOSpec.
Import ListNotations.
Local Open Scope Z_scope.

(** d becomes r when converted to a signed type of w bits. *)
Definition becomes (w d r : Z) : Prop := - 2 ^ (w - 1) <= r < 2 ^ (w - 1) /\ (2 ^ w | d - r).

(** a text of digits that does not start with 0 *)
Definition significant (ds : list ascii) : Prop :=
  exists c t n, ds = c :: t /\ numeral ds n /\ c <> "0"%char.

(** a sign and a number *)
Definition signed (neg : bool) (n : Z) : Z := if neg then - n else n.
Definition sign_text (neg : bool) : list ascii := if neg then ["-"%char] else [].

(** not zero, no redundant bins, and of a length a deque can have *)
Definition big_number (x : Int) : Prop :=
  trimmed (bins x) /\ bins_val (bins x) <> 0 /\ Z.of_nat (length (bins x)) < 2 ^ 63.
(** the i-th bin from the most significant one *)
Definition from_top (x : Int) (i : nat) : Z := nth i (rev (bins x)) 0.
(** both numbers have an i-th bin from the top, and i is an int *)
Definition reachable (w : Z) (x y : Int) (i : nat) : Prop :=
  Z.of_nat i < 2 ^ (w - 1) /\ (i < length (bins x))%nat /\ (i < length (bins y))%nat.

(** What reading the digits ds, whose number becomes r, stores: an Int without bins, 0, or
    the number made of the first r digits. *)
Definition outcome (neg : bool) (ds : list ascii) (r : Z) (x : Int) : Prop :=
  (r < 0 /\ x = mkInt [] neg) \/ (r = 0 /\ x = mkInt [0] false) \/
  (0 < r /\ canonical x /\ exists n, numeral (firstn (Z.to_nat r) ds) n /\ val x = signed neg n).
