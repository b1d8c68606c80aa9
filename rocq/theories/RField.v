(** The real numbers as a field of the Mathematical Components library, so that its matrices can be used. *)
From Coq Require Import Reals Lra FunctionalExtensionality ClassicalEpsilon.
From mathcomp Require Import ssreflect ssrfun ssrbool eqtype ssrnat seq choice ssralg.

Lemma Req_axiom : Equality.axiom (fun x y : R => if Req_EM_T x y then true else false).
Proof. move=> x y. by case: Req_EM_T => H; constructor. Qed.
Definition R_eqMixin := EqMixin Req_axiom.
Canonical R_eqType := Eval hnf in EqType R R_eqMixin.

Definition R_find (P : pred R) (n : nat) : option R :=
  match excluded_middle_informative (exists x, P x) with
  | left H => Some (proj1_sig (constructive_indefinite_description _ H))
  | right _ => None
  end.
Lemma R_find1 P n x : R_find P n = Some x -> P x.
Proof. rewrite /R_find. case: excluded_middle_informative => // H [<-]. exact: (proj2_sig (constructive_indefinite_description _ H)). Qed.
Lemma R_find2 (P : pred R) : (exists x, P x) -> exists n, R_find P n.
Proof. move=> H. exists 0%N. rewrite /R_find. by case: excluded_middle_informative. Qed.
Lemma R_find3 (P Q : pred R) : P =1 Q -> R_find P =1 R_find Q.
Proof. move=> H. have -> : P = Q by apply functional_extensionality. by []. Qed.
Definition R_choiceMixin := Choice.Mixin R_find1 R_find2 R_find3.
Canonical R_choiceType := Eval hnf in ChoiceType R R_choiceMixin.

Lemma R_addA : associative Rplus. Proof. move=> x y z. ring. Qed.
Lemma R_addC : commutative Rplus. Proof. move=> x y. ring. Qed.
Lemma R_add0 : left_id R0 Rplus. Proof. move=> x. ring. Qed.
Lemma R_addN : left_inverse R0 Ropp Rplus. Proof. move=> x. ring. Qed.
Definition R_zmodMixin := ZmodMixin R_addA R_addC R_add0 R_addN.
Canonical R_zmodType := Eval hnf in ZmodType R R_zmodMixin.

Lemma R_mulA : associative Rmult. Proof. move=> x y z. ring. Qed.
Lemma R_mulC : commutative Rmult. Proof. move=> x y. ring. Qed.
Lemma R_mul1 : left_id R1 Rmult. Proof. move=> x. ring. Qed.
Lemma R_mulD : left_distributive Rmult Rplus. Proof. move=> x y z. ring. Qed.
Lemma R_oner : is_true (R1 != R0).
Proof. apply/eqP. exact R1_neq_R0. Qed.
Definition R_ringMixin := ComRingMixin R_mulA R_mulC R_mul1 R_mulD R_oner.
Canonical R_ringType := Eval hnf in RingType R R_ringMixin.
Canonical R_comRingType := Eval hnf in ComRingType R R_mulC.

(** the inverse is that of the reals except that 0 has the inverse 0 *)
Definition R_inv (x : R) : R := if x == R0 then R0 else Rinv x.
Lemma R_mulV (x : R) : x != R0 -> (R_inv x * x)%R = R1.
Proof. move=> H. rewrite /R_inv (negbTE H). apply Rinv_l. by apply/eqP. Qed.
Lemma R_inv0 : R_inv R0 = R0.
Proof. by rewrite /R_inv eqxx. Qed.
Definition R_unitMixin := FieldUnitMixin R_mulV R_inv0.
Canonical R_unitRingType := Eval hnf in UnitRingType R R_unitMixin.
Canonical R_comUnitRingType := Eval hnf in [comUnitRingType of R].
Lemma R_field : GRing.Field.mixin_of R_unitRingType.
Proof. move=> x. by []. Qed.
Definition R_idomainMixin := FieldIdomainMixin R_field.
Canonical R_idomainType := Eval hnf in IdomainType R R_idomainMixin.
Canonical R_fieldType := Eval hnf in FieldType R R_field.
