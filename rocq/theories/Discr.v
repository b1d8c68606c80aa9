(** Discrete distributions: DiscreteDistr, SignDistr, ConstDistr (pacal/distr.py:1066-1122, 1225-1237) and
    Distr.ccdf_value (distr.py:140-151). *)
From Coq Require Import Reals List Bool Arith.
From Coquelicot Require Import Coquelicot.
From Verif Require Import Base Bisect Seg Piecewise SegInt.
Import List ListNotations.
Open Scope R_scope.

(** comparison of tuples, as used by list.sort (distr.py:1072) *)
Definition px_lt (p q : R * R) : bool := (rlt (fst p) (fst q) || (req (fst p) (fst q) && rlt (snd p) (snd q)))%bool.
(** px.sort() (distr.py:1072).  Tuples of numbers are totally ordered and equal ones indistinguishable, so the
    result does not depend on the sorting method; insertion sort here. *)
Fixpoint px_ins (p : R * R) (l : list (R * R)) : list (R * R) :=
  match l with
  | [] => [p]
  | q :: l' => if px_lt q p then q :: px_ins p l' else p :: l
  end.
Definition px_sort (l : list (R * R)) : list (R * R) := fold_right px_ins [] l.

(** numpy.cumsum *)
Fixpoint cumsum_from (acc : R) (l : list R) : list R :=
  match l with [] => [] | p :: l' => (acc + p) :: cumsum_from (acc + p) l' end.
Definition cumsum (l : list R) : list R := cumsum_from 0 l.

(** attributes xi, pi, cumP of a DiscreteDistr object *)
Record disc := Disc { d_xi : list R; d_pi : list R; d_cum : list R }.

(** DiscreteDistr.__init__ (distr.py:1068-1076) *)
Definition disc_init (xi pi : list R) : res disc :=
  if (length xi =? length pi)%nat then
    let px := px_sort (combine xi pi) in
    Ok (Disc (map fst px) (map snd px) (cumsum (map snd px)))
  else Err EAssert.

(** DiscreteDistr.pdf (distr.py:1077-1083), one component of the argument *)
Fixpoint disc_pdf_loop (xi pi : list R) (x yy : R) : R :=
  match xi, pi with
  | a :: xi', p :: pi' => disc_pdf_loop xi' pi' x (if req x a then yy + p else yy)
  | _, _ => yy
  end.
Definition disc_pdf (d : disc) (x : R) : R := disc_pdf_loop (d_xi d) (d_pi d) x 0.

(** DiscreteDistr.init_piecewise_pdf (distr.py:1084-1089): first all atoms, then the zero pieces between
    neighbouring values *)
Fixpoint disc_atoms (xi pi : list R) : list segment :=
  match xi, pi with a :: xi', p :: pi' => DiracSeg a p :: disc_atoms xi' pi' | _, _ => [] end.
Fixpoint disc_zeros (xi : list R) : list segment :=
  match xi with
  | a :: ((b :: _) as xi') => ConstSeg a b 0 :: disc_zeros xi'
  | _ => []
  end.
Definition disc_pw (eps : R) (d : disc) : res pwf :=
  rbind (addAll eps empty_pwf (disc_atoms (d_xi d) (d_pi d))) (fun p => addAll eps p (disc_zeros (d_xi d))).

(** DiscreteDistr.rand_raw (distr.py:1090-1094) for one uniform number u; searchsorted is a binary search for
    the leftmost place.  An index past the end raises IndexError. *)
Definition disc_rand (d : disc) (u : R) : res R :=
  let i := bisect_left rlt (d_cum d) u in
  let i := if (length (d_xi d) <? i)%nat then length (d_xi d) else i in
  match nth_error (d_xi d) i with Some x => Ok x | None => Err EIndex end.

(** ConstDistr.__init__ (distr.py:1226-1228) *)
Definition const_init (c p : R) : res disc := disc_init [c] [p].

(** Distr.ccdf_value (distr.py:140-151) *)
Definition ccdf_value (eps : R) (l : list segment) (x : R) : res R :=
  match rev l with
  | [] => Err EIndex
  | seg :: _ =>
      if (ble x (sa seg) || negb (isPInf seg))%bool then
        rbind (cumint eps l) (fun q => rmap (fun v => 1 - v) (call_scalar (segs q) x))
      else Ok (seg_integrate seg x p_infty)
  end.

(** SignDistr.__init__ (distr.py:1102-1114); [l] is the piecewise density of d *)
Definition sign_init (eps : R) (l : list segment) : res disc :=
  rbind (ccdf_value eps l 0) (fun prPlus =>
  let prZero := match getDirac l 0 with Some s => smass s | None => 0 end in
  rbind (rbind (cumint eps l) (fun q => call_scalar (segs q) 0)) (fun c =>
  let prMinus := c - prZero in
  if rlt 0 prZero then disc_init [-1; 0; 1] [prMinus; prZero; prPlus]
  else disc_init [-1; 1] [prMinus; prPlus])).
