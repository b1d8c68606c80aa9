(** MixDistr (pacal/standard_distr.py:68-107). *)
From Coq Require Import Reals List Bool Arith.
From Coquelicot Require Import Coquelicot.
From Verif Require Import Base Seg Piecewise.
Import List ListNotations.
Open Scope R_scope.

(** init_piecewise_pdf (standard_distr.py:88-93): probs[0] * pdf_0, then += probs[i] * pdf_i *)
Fixpoint mix_loop (eps : R) (acc : pwf) (pcs : list (R * list segment)) : res pwf :=
  match pcs with
  | [] => Ok acc
  | (p, c) :: pcs' =>
      rbind (mul_num eps c p) (fun pc => rbind (operation eps Rplus (segs acc) (segs pc)) (fun s => mix_loop eps s pcs'))
  end.
(** MixDistr(probs, distrs).get_piecewise_pdf() with the length check of __init__ (standard_distr.py:76) *)
Definition mix_pdf (eps : R) (ps : list R) (cs : list (list segment)) : res pwf :=
  if Nat.eqb (length ps) (length cs) then
    match combine ps cs with
    | [] => Err EIndex
    | (p, c) :: rest => rbind (mul_num eps c p) (fun pc => mix_loop eps pc rest)
    end
  else Err EAssert.

(** r[mask] = vals *)
Fixpoint assign_mask (mask : list bool) (vals r : list R) : list R :=
  match mask, r with
  | b :: mask', x :: r' =>
      if b then match vals with v :: vals' => v :: assign_mask mask' vals' r' | [] => x :: assign_mask mask' [] r' end
      else x :: assign_mask mask' vals r'
  | _, _ => r
  end.
(** rand_raw (standard_distr.py:97-103): idx is the outcome of randint(0, nmix, n), draw k m the m values drawn from
    component k; the weights are not used *)
Definition mix_rand (nmix : nat) (idx : list nat) (draw : nat -> nat -> list R) : list R :=
  fold_left (fun r k => assign_mask (map (Nat.eqb k) idx) (draw k (length (filter (Nat.eqb k) idx))) r)
            (seq 0 nmix) (map (fun _ => 0) idx).

(** range (standard_distr.py:104-108) *)
Definition mix_range (rs : list (Rbar * Rbar)) : res (Rbar * Rbar) :=
  match rs with
  | [] => Err EValue
  | r :: rs' => Ok (fold_left (fun a x => if blt (fst x) a then fst x else a) rs' (fst r),
                    fold_left (fun b x => if blt b (snd x) then snd x else b) rs' (snd r))
  end.
