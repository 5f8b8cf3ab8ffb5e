(** Mat with limited memory: the programs of HeapModel.v, run so that new T[] fails with
    std::bad_alloc when more than [limit] elements would be in arrays at the same time.

    Simplifications: memory is counted in elements, and every array in use counts with its
    length (no fragmentation, no overhead); the elements themselves need no further memory.
    Apart from that as AllocModel.v, whose [unwind] and [ending] are used. *)
From Verif Require Import Base IntModel IOModel ElemModel VecModel MatModel HeapModel AllocModel.
Local Open Scope list_scope.
Local Open Scope nat_scope.

(** the number of elements in arrays *)
Definition used {T} (s : memory T) : nat := list_sum (map (fun o => match o with Some a => length a | None => 0 end) (arrays s)).

Section Run.
Context {T : Type} (E : ops T) (limit : nat).
Fixpoint lrun {A} (p : prog T A) (s : memory T) : memory T * ending A :=
  match p in prog _ A return memory T * ending A with
  | Bind p k =>
      match lrun p s with
      | (s, Fin (Ok a)) => lrun (k a) s
      | (s, Fin m) => (s, Fin (_ <- m ;; UB))
      | (s, NoMem) => (s, NoMem)
      end
  | Scope x keep p =>
      match lrun p s with
      | (s, Fin (Ok a)) => if keep then (s, Fin (Ok a)) else let '(s, d) := destroy s x in (s, Fin (_ <- d ;; Ok a))
      | (s, Fin (Throw e)) => let '(s, d) := destroy s x in (s, Fin (_ <- d ;; Throw e))
      | (s, Fin m) => (s, Fin m)
      | (s, NoMem) => let '(s, _, e) := unwind s 0 x in (s, e)
      end
  | New r c => if limit <? used s + r * c then (s, NoMem) else let '(s, m) := hrun E (New r c) s in (s, Fin m)
  | Ret m => (s, Fin m)
  | Del x => let '(s, m) := hrun E (Del x) s in (s, Fin m)
  | Get x i j => let '(s, m) := hrun E (Get x i j) s in (s, Fin m)
  | Data x k => let '(s, m) := hrun E (Data x k) s in (s, Fin m)
  | Set_ x i j v => let '(s, m) := hrun E (Set_ x i j v) s in (s, Fin m)
  | Dims x => let '(s, m) := hrun E (Dims x) s in (s, Fin m)
  | Swap x y => let '(s, m) := hrun E (Swap x y) s in (s, Fin m)
  end.
End Run.
