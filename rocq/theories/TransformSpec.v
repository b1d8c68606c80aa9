(** Specification vocabulary for transformations: probability of an interval, and what it means for a
    piece to be the image of another. *)
From Coq Require Import Reals Lra List Bool.
From Coquelicot Require Import Coquelicot.
From Verif Require Import Base Seg Piecewise PiecewiseSpec Integral.
Import List ListNotations.
Open Scope R_scope.

(** strictly between two extended numbers *)
Definition betw (a b : Rbar) (x : R) : Prop := Rbar_lt a x /\ Rbar_lt x b.

(** probability that a piece assigns to the open interval (u,v) *)
Definition rmaxb (x y : Rbar) : Rbar := if Rbar_le_dec x y then y else x.
Definition rminb (x y : Rbar) : Rbar := if Rbar_le_dec x y then x else y.
Definition prob (s : segment) (u v : Rbar) : R :=
  match s with
  | DiracSeg a m => if Rbar_lt_dec u a then if Rbar_lt_dec a v then m else 0 else 0
  | _ => let lo := rmaxb u (sa s) in
         let hi := rminb v (sb s) in
         if Rbar_lt_dec lo hi then RInt_gen (sf s) (at_r lo) (at_l hi) else 0
  end.
(** ... and a function *)
Definition pprob (l : list segment) (u v : Rbar) : R := sumR (map (fun s => prob s u v) l).

(** the function of a continuous piece has a (possibly improper) integral over the piece *)
Definition has_int (s : segment) : Prop := isDirac s = false -> integrable (sf s) (sa s) (sb s).
(** ... and is continuous inside it *)
Definition cont_inside (s : segment) : Prop := forall x : R, isDirac s = false -> betw (sa s) (sb s) x -> continuous (sf s) x.

(** On [a,b], g is strictly monotone (inc: increasing) with inverse ginv. *)
Definition inverse_pair (inc : bool) (g : Rbar -> Rbar) (ginv : R -> R) (a b : Rbar) : Prop :=
  (forall x y, Rbar_le a x -> Rbar_lt x y -> Rbar_le y b ->
     if inc then Rbar_lt (g x) (g y) else Rbar_lt (g y) (g x)) /\
  (forall x : R, betw a b x -> exists y : R, g x = y /\ ginv y = x) /\
  (forall y : R, (if inc then betw (g a) (g b) y else betw (g b) (g a) y) -> betw a b (ginv y) /\ g (ginv y) = y).
(** dginv is the continuous derivative of ginv on (c,d) *)
Definition derivative_on (ginv dginv : R -> R) (c d : Rbar) : Prop :=
  forall y : R, betw c d y -> is_derive ginv y (dginv y) /\ continuous dginv y.

(** image of an interval *)
Definition lo_end (inc : bool) (g : Rbar -> Rbar) (u v : Rbar) : Rbar := if inc then g u else g v.
Definition hi_end (inc : bool) (g : Rbar -> Rbar) (u v : Rbar) : Rbar := if inc then g v else g u.

(** t is the image of s under the monotone g on [a,b]: it spans the image interval and gives to the
    image of every interval the probability of the interval *)
Definition image_piece (inc : bool) (g : Rbar -> Rbar) (a b : Rbar) (s t : segment) : Prop :=
  isDirac t = isDirac s /\ wf_seg t /\ has_int t /\
  sa t = lo_end inc g (sa s) (sb s) /\ sb t = hi_end inc g (sa s) (sb s) /\
  forall u v, Rbar_le a u -> Rbar_lt u v -> Rbar_le v b ->
    prob t (lo_end inc g u v) (hi_end inc g u v) = prob s u v.

(** within [a,b] *)
Definition within (a b : Rbar) (s : segment) : Prop := Rbar_le a (sa s) /\ Rbar_le (sb s) b.

(** x |-> scale x + shift on the extended line *)
Definition affine (shift scale : R) (x : Rbar) : Rbar :=
  match x with
  | Finite r => Finite (r * scale + shift)
  | p_infty => if Rlt_dec 0 scale then p_infty else m_infty
  | m_infty => if Rlt_dec 0 scale then m_infty else p_infty
  end.

(** same piece up to pointwise equality of the function *)
Definition same_piece (s t : segment) : Prop :=
  sa s = sa t /\ sb s = sb t /\ isDirac s = isDirac t /\ isPInf s = isPInf t /\ isMInf s = isMInf t /\
  hasLeftPole s = hasLeftPole t /\ hasRightPole s = hasRightPole t /\ smass s = smass t /\ forall x, sf s x = sf t x.

(** The code recognises an infinite image end by the sign of the other end: a piece (a,b) is treated
    correctly when an infinite end of its image and the other end have the same sign. *)
Definition ends_ok (g : Rbar -> Rbar) (a b : Rbar) : Prop :=
  (g a = m_infty -> Rbar_lt (g b) 0) /\ (g a = p_infty -> Rbar_le 0 (g b)) /\
  (g b = p_infty -> Rbar_lt 0 (g a)) /\ (g b = m_infty -> Rbar_le (g a) 0).
(** ... after pieces have been split at zero *)
Definition ends_ok_split (g : Rbar -> Rbar) (s : segment) : Prop :=
  if isDirac s then is_finite (g (sa s))
  else if (blt (sa s) 0 && blt 0 (sb s))%bool then ends_ok g (sa s) 0 /\ ends_ok g 0 (sb s)
  else ends_ok g (sa s) (sb s).

(** atoms stay further apart than the tolerance after applying g *)
Definition image_sep (eps : R) (g : Rbar -> Rbar) (l : list segment) : Prop :=
  ForallOrdPairs (fun s t => match s, t with DiracSeg a _, DiracSeg b _ => eps < Rabs (real (g a) - real (g b)) | _, _ => True end) l.

(** an even function of R extended to +-inf, where it is +inf *)
Definition ext_even (g : R -> R) (x : Rbar) : Rbar := match x with Finite r => Finite (g r) | _ => p_infty end.
(** images of atoms coincide or are further apart than the tolerance *)
Definition atoms_even_sep (eps : R) (g : R -> R) (l : list segment) : Prop :=
  forall a m b k, In (DiracSeg a m) l -> In (DiracSeg b k) l -> g a = g b \/ eps < Rabs (g a - g b).

(** what an even transformation has to do: q is the law of g(X) *)
Definition even_law (g : R -> R) (l q : list segment) : Prop :=
  (forall y z, Rbar_le y z -> Rbar_le z 0 -> pprob q y z = 0) /\
  (forall u v, Rbar_le 0 u -> Rbar_lt u v ->
     pprob q (ext_even g u) (ext_even g v) = pprob l u v + pprob l (Rbar_opp v) (Rbar_opp u)) /\
  (forall y v, Rbar_lt y 0 -> Rbar_lt 0 v -> pprob q y (ext_even g v) = pprob l (Rbar_opp v) v).

(** 1/x seen from the left of zero *)
Definition one_over_neg (x : Rbar) : Rbar :=
  match x with Finite x => if req x 0 then m_infty else Finite (1 / x) | _ => Finite 0 end.

