(** Opposite normals in floating point (C143): from (1,3,7) to (-3,-9,-21). *)
From Coq Require Import ZArith Reals Lra Lia Psatz.
From Flocq Require Import Core.
From Verif Require Import Vec3 Numpy Model_Spatial Model_Float Model_Float9 Spec_Float Spec_Float7
  Proof_Spatial Proof_Float Proof_Float2 Proof_Float3 Proof_Float9 Proof_Float13 Proof_Float14 Proof_Float18 Proof_Float19.
Open Scope R_scope.

Lemma sqrt_between n a b : 0 <= a -> 0 <= b -> a * a < n < b * b -> a < sqrt n < b.
Proof.
  intros A B [L H]. split.
  - rewrite <- (sqrt_square a A). apply sqrt_lt_1; nra.
  - rewrite <- (sqrt_square b B). apply sqrt_lt_1; nra.
Qed.
Ltac zpow k := let z := eval vm_compute in (2 ^ k)%Z in change (2 ^ k)%Z with z.
Lemma s0_is : fl (sqrt 59) = 8648201281969883 / IZR (2 ^ 50).
Proof.
  apply fl_lit; [lia|lia|]. zpow 50%Z. pose proof (sqrt_between 59 ((8648201281969883 - / 2) / 1125899906842624) ((8648201281969883 + / 2) / 1125899906842624)) as H.
  destruct H as [H1 H2]; [lra|lra|lra|]. lra.
Qed.
Lemma s1_is : fl (sqrt 531) = 6486150961477413 / IZR (2 ^ 48).
Proof.
  apply fl_lit; [lia|lia|]. zpow 48%Z. pose proof (sqrt_between 531 ((6486150961477413 - / 2) / 281474976710656) ((6486150961477413 + / 2) / 281474976710656)) as H.
  destruct H as [H1 H2]; [lra|lra|lra|]. lra.
Qed.
Lemma a0_is : fl (1 / (8648201281969883 / IZR (2 ^ 50))) = 4690549847848073 / IZR (2 ^ 55).
Proof. apply fl_lit; [lia|lia|]. zpow 50%Z. zpow 55%Z. lra. Qed.
Lemma a1_is : fl (3 / (8648201281969883 / IZR (2 ^ 50))) = 7035824771772109 / IZR (2 ^ 54).
Proof. apply fl_lit; [lia|lia|]. zpow 50%Z. zpow 54%Z. lra. Qed.
Lemma a2_is : fl (7 / (8648201281969883 / IZR (2 ^ 50))) = 8208462233734127 / IZR (2 ^ 53).
Proof. apply fl_lit; [lia|lia|]. zpow 50%Z. zpow 53%Z. lra. Qed.
Lemma b0_is : fl (-3 / (6486150961477413 / IZR (2 ^ 48))) = - (4690549847848072 / IZR (2 ^ 55)).
Proof. replace (-3 / (6486150961477413 / IZR (2 ^ 48))) with (- (3 / (6486150961477413 / IZR (2 ^ 48)))) by (zpow 48%Z; lra). rewrite fl_opp. f_equal. apply fl_lit; [lia|lia|]. zpow 48%Z. zpow 55%Z. lra. Qed.
Lemma b1_is : fl (-9 / (6486150961477413 / IZR (2 ^ 48))) = - (7035824771772108 / IZR (2 ^ 54)).
Proof. replace (-9 / (6486150961477413 / IZR (2 ^ 48))) with (- (9 / (6486150961477413 / IZR (2 ^ 48)))) by (zpow 48%Z; lra). rewrite fl_opp. f_equal. apply fl_lit; [lia|lia|]. zpow 48%Z. zpow 54%Z. lra. Qed.
Lemma b2_is : fl (-21 / (6486150961477413 / IZR (2 ^ 48))) = - (8208462233734126 / IZR (2 ^ 53)).
Proof. replace (-21 / (6486150961477413 / IZR (2 ^ 48))) with (- (21 / (6486150961477413 / IZR (2 ^ 48)))) by (zpow 48%Z; lra). rewrite fl_opp. f_equal. apply fl_lit; [lia|lia|]. zpow 48%Z. zpow 53%Z. lra. Qed.
Lemma neg_prod x y : fl (x * - y) = - fl (x * y). Proof. rewrite <- fl_opp. f_equal. ring. Qed.
Ltac prod k1 k2 k := apply fl_lit; [lia|lia|]; zpow k1; zpow k2; zpow k; lra.
Lemma p12 : fl (7035824771772109 / IZR (2 ^ 54) * (8208462233734126 / IZR (2 ^ 53))) = 6411904554222401 / IZR (2 ^ 54).
Proof. prod 53%Z 54%Z 54%Z. Qed.
Lemma p21 : fl (8208462233734127 / IZR (2 ^ 53) * (7035824771772108 / IZR (2 ^ 54))) = 6411904554222401 / IZR (2 ^ 54).
Proof. prod 53%Z 54%Z 54%Z. Qed.
Lemma p20 : fl (8208462233734127 / IZR (2 ^ 53) * (4690549847848072 / IZR (2 ^ 55))) = 8549206072296535 / IZR (2 ^ 56).
Proof. prod 53%Z 55%Z 56%Z. Qed.
Lemma p02 : fl (4690549847848073 / IZR (2 ^ 55) * (8208462233734126 / IZR (2 ^ 53))) = 8549206072296535 / IZR (2 ^ 56).
Proof. prod 53%Z 55%Z 56%Z. Qed.
Lemma p01 : fl (4690549847848073 / IZR (2 ^ 55) * (7035824771772108 / IZR (2 ^ 54))) = 7327890919111316 / IZR (2 ^ 57).
Proof. prod 54%Z 55%Z 57%Z. Qed.
Lemma p10 : fl (7035824771772109 / IZR (2 ^ 54) * (4690549847848072 / IZR (2 ^ 55))) = 7327890919111315 / IZR (2 ^ 57).
Proof. prod 54%Z 55%Z 57%Z. Qed.

Section Opposite.
  Variable nrm : vec3 -> R.
  Hypothesis GN : good_norm nrm.
  Hypothesis GI : rounds_small_integers nrm.
  Let v0 := V3 1 3 7. Let v1 := V3 (-3) (-9) (-21).
  Lemma axis_is : fcross (fnormalised nrm v0) (fnormalised nrm v1) = V3 0 0 (- / IZR (2 ^ 57)).
  Proof.
    unfold fnormalised, v0, v1. pose proof (GI 1%Z 3%Z 7%Z ltac:(lia) ltac:(lia) ltac:(lia)) as E0. pose proof (GI (-3)%Z (-9)%Z (-21)%Z ltac:(lia) ltac:(lia) ltac:(lia)) as E1.
    change (1 * 1 + 3 * 3 + 7 * 7)%Z with 59%Z in E0. change (-3 * -3 + -9 * -9 + -21 * -21)%Z with 531%Z in E1. rewrite E0, E1. cbn [vx vy vz].
    rewrite s0_is, s1_is, a0_is, a1_is, a2_is, b0_is, b1_is, b2_is. unfold fcross. cbn [vx vy vz]. rewrite !neg_prod, p12, p21, p20, p02, p01, p10.
    unfold Rminus. rewrite !Ropp_involutive. f_equal.
    - rewrite Rplus_opp_l. apply fl0.
    - rewrite Rplus_opp_l. apply fl0.
    - transitivity (fl (- bpow radix2 (Z.opp 57))).
      + f_equal. rewrite bpow_opp. change (bpow radix2 57) with (IZR (2 ^ 57)). zpow 57%Z. lra.
      + rewrite fl_id by (apply float_opp, float_bpow). rewrite bpow_opp. reflexivity.
  Qed.
  Lemma opposite_lost dot M : frotation_matrix nrm dot v0 v1 (/ 10 ^ 20) = Ok M -> vz (mvec M v0) = 7.
  Proof.
    unfold frotation_matrix. cbv zeta. rewrite axis_is. set (c := - / IZR (2 ^ 57)). assert (C : c <> 0) by (unfold c; zpow 57%Z; lra).
    unfold Rltb at 1. destruct (Rlt_dec _ _) as [L|L].
    - exfalso. pose proof (GN (V3 0 0 c)) as G. unfold within in G. assert (V : vnorm (V3 0 0 c) = / IZR (2 ^ 57)).
      { apply vnorm_unique; [zpow 57%Z; lra|]. unfold vnorm2, c. cbn [vx vy vz]. ring. }
      rewrite V, (Rabs_pos_eq (/ IZR (2 ^ 57))) in G by (zpow 57%Z; lra). apply Rabs_le_inv in G. revert G L. zpow 57%Z. lra.
    - intros E. set (w := fl _) in E. assert (P : 0 < vnorm2 (V3 0 0 c) + w * w) by (unfold vnorm2; cbn [vx vy vz]; nra).
      destruct (quat_matrix_spec _ w P) as (M' & E' & _ & F). rewrite E' in E. injection E as <-. specialize (F v0).
      assert (Z : (vnorm2 (V3 0 0 c) + w * w) * vz (mvec M' v0) = (vnorm2 (V3 0 0 c) + w * w) * 7).
      { transitivity (vz (vscal (vnorm2 (V3 0 0 c) + w * w) (mvec M' v0))); [reflexivity|]. rewrite F. unfold v0. vunf. ring. }
      apply Rmult_eq_reg_l in Z; lra.
  Qed.
End Opposite.
