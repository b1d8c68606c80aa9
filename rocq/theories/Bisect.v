(** Python's bisect module, as used by segments.py on the sorted list of segments. *)
From Coq Require Import List Arith Lia Bool.
Import ListNotations.

Section Bisect.
Context {A : Type}.

(** CPython Lib/bisect.py [bisect_left]: [while lo < hi: mid = (lo+hi)//2;
    if a[mid] < x: lo = mid+1 else: hi = mid].  [p] is [fun s => s < x].
    The loop is bounded by a fuel of [length l] (each turn shrinks hi-lo);
    an index outside the list cannot be read because mid < hi <= length. *)
Fixpoint bisect_loop (p : A -> bool) (l : list A) (fuel lo hi : nat) : nat :=
  match fuel with
  | O => lo
  | S fuel' =>
      if lo <? hi then
        let mid := Nat.div2 (lo + hi) in
        match nth_error l mid with
        | Some s => if p s then bisect_loop p l fuel' (S mid) hi
                    else bisect_loop p l fuel' lo mid
        | None => lo
        end
      else lo
  end.

(** bisect.bisect_left(l, x) with [lt] the comparison used by the list elements
    (segments.py:1092-1093, 1104). *)
Definition bisect_left (lt : A -> A -> bool) (l : list A) (x : A) : nat :=
  bisect_loop (fun s => lt s x) l (S (length l)) 0 (length l).

(** bisect.bisect_right: the test is [if x < a[mid]: hi = mid else: lo = mid+1]. *)
Definition bisect_right (lt : A -> A -> bool) (l : list A) (x : A) : nat :=
  bisect_loop (fun s => negb (lt x s)) l (S (length l)) 0 (length l).

(** list.insert(i, x). *)
Fixpoint list_insert (i : nat) (x : A) (l : list A) : list A :=
  match i, l with
  | S i', y :: l' => y :: list_insert i' x l'
  | _, _ => x :: l
  end.

(** bisect.insort = insort_right: l.insert(bisect_right(l, x), x) (segments.py:1099). *)
Definition insort (lt : A -> A -> bool) (l : list A) (x : A) : list A :=
  list_insert (bisect_right lt l x) x l.

End Bisect.
