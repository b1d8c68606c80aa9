(** Inversion of a cumulative function: getSegVals, inverse_scalar (pacal/segments.py:1507-1512, 1796-1834),
    and quantile, median, interval, iqrange built on it (distr.py, segments.py:1927-1929). *)
From Coq Require Import Reals List Bool Arith.
From Coquelicot Require Import Coquelicot.
From Verif Require Import Base Bisect Seg Piecewise SegInt Root.
Import List ListNotations.
Open Scope R_scope.

(** the variable x of inverse_scalar: None, nan or a number (possibly infinite) *)
Inductive qv := QNone | QNan | QAt (x : Rbar).

Section Inverse.
(** value of seg.f at the infinite end of a half-infinite piece (call_segint at -inf or inf: the integral over an
    empty range is 0, integration.py:236-237, 244-245) *)
Variable vinf : segment -> R.
(** the root finder called by findinv: brentq or bisect *)
Variable solve : (R -> R) -> R -> R -> res R.
(** rounds allowed to the searches of findinv_minf and findinv_pinf; in floating point they end by overflow *)
Variable fuel : nat.

(** getSegVals (segments.py:1507-1512): seg(seg.a), seg(seg.b) *)
Definition end_val (s : segment) (e : Rbar) : R :=
  match e with Finite x => seg_call s x | _ => vinf s end.
Definition getSegVals (l : list segment) : list (R * R) := map (fun s => (end_val s (sa s), end_val s (sb s))) l.

(** the result of findinv_minf and findinv_pinf *)
Definition of_search (s : segment) (y : R) (r : search) : res qv :=
  match r with
  | SNan => Ok QNan
  | SBracket a b => rmap (fun x => QAt (Finite x)) (findinv solve (sf s) a b y)
  | SRunning => Err EFuel
  end.
(** the body of the first loop for a selected piece (segments.py:1805-1819); an atom has no function *)
Definition inv_piece (s : segment) (y : R) : res qv :=
  match s with
  | MInfSeg b f => if req y 0 then Ok (QAt m_infty) else of_search s y (findinv_minf f fuel b y)
  | PInfSeg a f => if req y 1 then Ok (QAt p_infty) else of_search s y (findinv_pinf f true fuel a y)
  | DiracSeg _ _ => Err EType
  | _ => rmap (fun x => QAt (Finite x)) (findinv solve (sf s) (real (sa s)) (real (sb s)) y)
  end.
(** (segments.py:1801-1819) *)
Fixpoint inv_cont (l : list segment) (vals : list (R * R)) (y : R) (x : qv) : res qv :=
  match l, vals with
  | s :: l', v :: vals' =>
      rbind (if ((rle (fst v) y && rle y (snd v)) || (rle y (fst v) && rle (snd v) y))%bool then inv_piece s y else Ok x)
            (inv_cont l' vals' y)
  | _, _ => Ok x
  end.
(** (segments.py:1820-1823); [i] counts the pieces *)
Fixpoint inv_jump (i : nat) (vals : list (R * R)) (breaks : list Rbar) (y : R) (x : qv) : res qv :=
  match vals with
  | v :: ((w :: _) as vals') =>
      rbind (if (rle (snd v) y && rle y (fst w))%bool
             then match nth_error breaks (S i) with Some b => Ok (QAt b) | None => Err EIndex end
             else Ok x)
            (inv_jump (S i) vals' breaks y)
  | _ => Ok x
  end.
Definition min_list (l : list R) (d : R) : R := fold_left Rmin l d.
Definition max_list (l : list R) (d : R) : R := fold_left Rmax l d.
(** (segments.py:1824-1834), fix_for_cdf = True *)
Definition inv_fix (vals : list (R * R)) (y : R) (x : qv) : res qv :=
  match x with
  | QNone =>
      match vals with
      | [] => Err EValue
      | v :: vals' =>
          let m := min_list (map (fun w => Rmin (fst w) (snd w)) vals') (Rmin (fst v) (snd v)) in
          let M := max_list (map (fun w => Rmax (fst w) (snd w)) vals') (Rmax (fst v) (snd v)) in
          let x := if (rle 0 y && rlt y m)%bool then QAt m_infty else QNone in
          let x := if (rle y 1 && rlt M y)%bool then QAt p_infty else x in
          Ok (match x with QNone => QNan | _ => x end)
      end
  | _ => Ok x
  end.
Definition inverse_scalar (l : list segment) (y : R) : res qv :=
  let vals := getSegVals l in
  let breaks := getBreaks l in
  rbind (inv_cont l vals y QNone) (fun x =>
  rbind (inv_jump 0 vals breaks y x) (fun x => inv_fix vals y x)).

(** Distr.quantile (distr.py:211-214) for a scalar; median (segments.py:1927-1929); interval (distr.py:221-228) *)
Definition quantile (eps : R) (l : list segment) (y : R) : res qv := rbind (cumint eps l) (fun c => inverse_scalar (segs c) y).
Definition median (eps : R) (l : list segment) : res qv := quantile eps l (1/2).
Definition interval (eps : R) (l : list segment) (p : R) : res (qv * qv) :=
  let p_lim := (1 - p) / 2 in
  rbind (quantile eps l p_lim) (fun a => rbind (quantile eps l (1 - p_lim)) (fun b => Ok (a, b))).
End Inverse.
