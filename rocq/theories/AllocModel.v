(** Mat when memory runs out: the programs of HeapModel.v, run so that any request for
    memory may fail with std::bad_alloc.

    The n-th request fails if [fails n]. A request is made by new T[] (src/Mat.hpp:107-128)
    and, if the element type itself allocates ([el] is true: Int, Frac), by every computation
    with elements, by every read of one (it may be copied), and by every assignment to one;
    such an assignment may leave anything, [junk n], in the element. If new T[] fails in an element's constructor, the
    language destroys the elements made so far and frees the array, so nothing is left. The
    exception unwinds the stack: local objects are destroyed, but not the object whose
    constructor is being executed. Simplification: evaluating an expression makes one
    request, at its end; an expression that returns a local object counts too. *)
From Verif Require Import Base IntModel IOModel ElemModel VecModel MatModel HeapModel.
Local Open Scope list_scope.
Local Open Scope nat_scope.

Inductive ending (A : Type) := Fin (m : res A) | NoMem.
Arguments Fin {A} _.
Arguments NoMem {A}.
(** What is left, the number of requests made, and how it ended *)
Definition run_end (T A : Type) : Type := memory T * nat * ending A.

Section Run.
Context {T : Type} (E : ops T) (el : bool) (fails : nat -> bool) (junk : nat -> T).
(** the destructor of a local object during unwinding *)
Definition unwind {A} (s : memory T) (n x : nat) : run_end T A :=
  let '(s, d) := destroy s x in (s, n, match d with Ok _ => NoMem | _ => Fin UB end).
(** an expression, or a copy of an entry *)
Definition with_element {A} (s : memory T) (n : nat) (m : res A) : run_end T A :=
  if el then (s, S n, if fails n then NoMem else Fin m) else (s, n, Fin m).
Fixpoint arun {A} (p : prog T A) (s : memory T) (n : nat) : run_end T A :=
  match p in prog _ A return run_end T A with
  | Ret m => with_element s n m
  | Bind p k =>
      match arun p s n with
      | (s, n, Fin (Ok a)) => arun (k a) s n
      | (s, n, Fin m) => (s, n, Fin (_ <- m ;; UB))
      | (s, n, NoMem) => (s, n, NoMem)
      end
  | Scope x keep p =>
      match arun p s n with
      | (s, n, Fin (Ok a)) => if keep then (s, n, Fin (Ok a)) else let '(s, d) := destroy s x in (s, n, Fin (_ <- d ;; Ok a))
      | (s, n, Fin (Throw e)) => let '(s, d) := destroy s x in (s, n, Fin (_ <- d ;; Throw e))
      | (s, n, Fin m) => (s, n, Fin m)
      | (s, n, NoMem) => unwind s n x
      end
  | New r c =>
      if fails n then (s, S n, NoMem)
      else let '(s, a) := new_array E s (r * c) in
           (mkMem (arrays s) (objs s ++ [Some (mkObj r c a)]), S n, Fin (Ok (length (objs s))))
  | Set_ x i j v =>
      let put (v : T) := store s x (fun o => i * ocols o + j) v in
      if el then if fails n then (fst (put (junk n)), S n, match snd (put (junk n)) with Ok _ => NoMem | m => Fin m end)
                 else (fst (put v), S n, Fin (snd (put v)))
      else (fst (put v), n, Fin (snd (put v)))
  | Del x => (fst (hrun E (Del x) s), n, Fin (snd (hrun E (Del x) s)))
  | Get x i j => with_element s n (load s x (fun o => i * ocols o + j))
  | Data x k => with_element s n (load s x (fun _ => k))
  | Dims x => (s, n, Fin (snd (hrun E (Dims x) s)))
  | Swap x y => (fst (hrun E (Swap x y) s), n, Fin (snd (hrun E (Swap x y) s)))
  end.
End Run.
