(** Vanishing entries and asymmetry of the gravity gradient of a point mass in floating point (C145). *)
From Coq Require Import ZArith Reals Lra Lia Psatz.
From Flocq Require Import Core.
From Verif Require Import Vec3 Model_Gravity Model_Static Model_Float Model_Float9 Model_Float11 Spec_Float Spec_Float7
  Proof_Float Proof_Float2 Proof_Float3 Proof_Float8 Proof_Float9 Proof_Float19 Proof_Float20.
Open Scope R_scope.

Lemma r38 : fl (sqrt 38) = 6940513151682137 / IZR (2 ^ 50).
Proof.
  apply fl_lit; [lia|lia|]. zpow 50%Z. pose proof (sqrt_between 38 ((6940513151682137 - / 2) / 1125899906842624) ((6940513151682137 + / 2) / 1125899906842624)) as H.
  destruct H as [H1 H2]; [lra|lra|lra|]. lra.
Qed.
Lemma r38_cube : fl ((6940513151682137 / IZR (2 ^ 50)) ^ 3) = 8241859367622537 / IZR (2 ^ 45).
Proof. apply fl_lit; [lia|lia|]. zpow 45%Z. zpow 50%Z. lra. Qed.
Lemma G_is : fl G_newton = 5163989502626508 / IZR (2 ^ 86).
Proof. apply fl_lit; [lia|lia|]. zpow 86%Z. unfold G_newton. lra. Qed.
Lemma a_is : fl (2 / (6940513151682137 / IZR (2 ^ 50))) = 5844642654048116 / IZR (2 ^ 54).
Proof. apply fl_lit; [lia|lia|]. zpow 50%Z. zpow 54%Z. lra. Qed.
Lemma b_is : fl (5 / (6940513151682137 / IZR (2 ^ 50))) = 7305803317560145 / IZR (2 ^ 53).
Proof. apply fl_lit; [lia|lia|]. zpow 50%Z. zpow 53%Z. lra. Qed.
Lemma ab_t : fl (3 * (5844642654048116 / IZR (2 ^ 54))) = 8766963981072174 / IZR (2 ^ 53).
Proof. apply fl_lit; [lia|lia|]. zpow 53%Z. zpow 54%Z. lra. Qed.
Lemma ab_q : fl ((8766963981072174 / IZR (2 ^ 53)) * (7305803317560145 / IZR (2 ^ 53))) = 7110946780058678 / IZR (2 ^ 53).
Proof. apply fl_lit; [lia|lia|]. zpow 53%Z. lra. Qed.
Lemma ab_m : fl ((5163989502626508 / IZR (2 ^ 86)) * (7110946780058678 / IZR (2 ^ 53))) = 8153667635726065 / IZR (2 ^ 87).
Proof. apply fl_lit; [lia|lia|]. zpow 53%Z. zpow 86%Z. zpow 87%Z. lra. Qed.
Lemma ab_f : fl ((8153667635726065 / IZR (2 ^ 87)) / (8241859367622537 / IZR (2 ^ 45))) = 8910818029779450 / IZR (2 ^ 95).
Proof. apply fl_lit; [lia|lia|]. zpow 45%Z. zpow 87%Z. zpow 95%Z. lra. Qed.
Lemma ba_t : fl (3 * (7305803317560145 / IZR (2 ^ 53))) = 5479352488170109 / IZR (2 ^ 51).
Proof. apply fl_lit; [lia|lia|]. zpow 51%Z. zpow 53%Z. lra. Qed.
Lemma ba_q : fl ((5479352488170109 / IZR (2 ^ 51)) * (5844642654048116 / IZR (2 ^ 54))) = 7110946780058679 / IZR (2 ^ 53).
Proof. apply fl_lit; [lia|lia|]. zpow 51%Z. zpow 53%Z. zpow 54%Z. lra. Qed.
Lemma ba_m : fl ((5163989502626508 / IZR (2 ^ 86)) * (7110946780058679 / IZR (2 ^ 53))) = 8153667635726067 / IZR (2 ^ 87).
Proof. apply fl_lit; [lia|lia|]. zpow 53%Z. zpow 86%Z. zpow 87%Z. lra. Qed.
Lemma ba_f : fl ((8153667635726067 / IZR (2 ^ 87)) / (8241859367622537 / IZR (2 ^ 45))) = 8910818029779452 / IZR (2 ^ 95).
Proof. apply fl_lit; [lia|lia|]. zpow 45%Z. zpow 87%Z. zpow 95%Z. lra. Qed.
Lemma r27 : fl (sqrt 27) = 5850347528665472 / IZR (2 ^ 50).
Proof.
  apply fl_lit; [lia|lia|]. zpow 50%Z. pose proof (sqrt_between 27 ((5850347528665472 - / 2) / 1125899906842624) ((5850347528665472 + / 2) / 1125899906842624)) as H.
  destruct H as [H1 H2]; [lra|lra|lra|]. lra.
Qed.
Lemma c_is : fl (3 / (5850347528665472 / IZR (2 ^ 50))) = 5200308914369308 / IZR (2 ^ 53).
Proof. apply fl_lit; [lia|lia|]. zpow 50%Z. zpow 53%Z. lra. Qed.
Lemma c_t : fl (3 * (5200308914369308 / IZR (2 ^ 53))) = 7800463371553962 / IZR (2 ^ 52).
Proof. apply fl_lit; [lia|lia|]. zpow 52%Z. zpow 53%Z. lra. Qed.
Lemma c_q : fl ((7800463371553962 / IZR (2 ^ 52)) * (5200308914369308 / IZR (2 ^ 53))) = 9007199254740991 / IZR (2 ^ 53).
Proof. apply fl_lit; [lia|lia|]. zpow 52%Z. zpow 53%Z. lra. Qed.
Lemma fl_Z m : (Z.abs m < 2 ^ 53)%Z -> fl (IZR m) = IZR m.
Proof. intros H. apply fl_id. replace (IZR m) with (IZR m * bpow radix2 0) by (cbn; ring). apply float_int, H. Qed.
Lemma norm_Z x y z n : (Z.abs x < 1000)%Z -> (Z.abs y < 1000)%Z -> (Z.abs z < 1000)%Z -> (x * x + y * y + z * z = n)%Z ->
  fnorm (fdiff (V3 (IZR x) (IZR y) (IZR z)) (V3 0 0 0)) = fl (sqrt (IZR n)).
Proof.
  intros X Y Z <-. unfold fnorm, fdiff. cbn [vx vy vz]. rewrite !Rminus_0_r, !fl_Z by lia. rewrite <- !mult_IZR.
  rewrite !fl_Z by nia. rewrite <- plus_IZR, fl_Z by nia. rewrite <- plus_IZR, fl_Z by nia. reflexivity.
Qed.

(** at (3, 3, 3) the diagonal of the gradient is zero, its computed value is not *)
Lemma vanishing pow mass : good_pow pow -> mass <> 0 -> vx (m0 (fpm_gradient pow mass (V3 0 0 0) (V3 3 3 3))) <> 0.
Proof.
  intros GP M. unfold fpm_gradient. rewrite (norm_Z 3 3 3 27) by lia. cbv zeta. cbn [m0 vx vy vz fvdiv fdiff]. rewrite Rminus_0_r, (fl_Z 3) by lia.
  pose proof (pow_near pow (fl (sqrt 27)) 3 GP) as NP. rewrite r27 in *. rewrite c_is, c_t, c_q.
  assert (E : fl (1 - 9007199254740991 / IZR (2 ^ 53)) <> 0). { eapply near_n0; [apply near_fl|]. zpow 53%Z. lra. }
  assert (G : fG <> 0). { eapply near_n0; [apply near_fl|]. unfold G_newton. lra. }
  eapply near_n0; [apply near_fl|]. apply Rmult_integral_contrapositive_currified.
  - eapply near_n0; [apply near_fl|]. apply Rmult_integral_contrapositive_currified; [|exact E]. eapply near_n0; [apply near_fl|]. apply Rmult_integral_contrapositive_currified; [lra|exact M].
  - apply Rinv_neq_0_compat. eapply near_n0; [apply NP|]. apply pow_nonzero. zpow 50%Z. lra.
Qed.
Lemma asymmetric pow : (forall x, pow x 3%nat = fl (x ^ 3)) ->
  vy (m0 (fpm_gradient pow 1 (V3 0 0 0) (V3 2 5 3))) <> vx (m1 (fpm_gradient pow 1 (V3 0 0 0) (V3 2 5 3))).
Proof.
  intros CP. unfold fpm_gradient. rewrite (norm_Z 2 5 3 38) by lia. cbv zeta. cbn [m0 m1 vx vy vz fvdiv fdiff]. rewrite !Rminus_0_r, (fl_Z 2), (fl_Z 5) by lia.
  rewrite CP, r38, r38_cube, a_is, b_is, ab_t, ab_q, ba_t, ba_q. rewrite Rmult_1_r, fl_opp. unfold fG. rewrite G_is.
  assert (FI : forall x, fl (fl x) = fl x) by (intros x; apply fl_id, fl_float).
  rewrite <- G_is, FI, G_is, !Rminus_0_l, !fl_opp, <- ab_q, <- ba_q, !FI, ab_q, ba_q, !Rmult_opp_opp, ab_m, ba_m, ab_f, ba_f. zpow 95%Z. lra.
Qed.
