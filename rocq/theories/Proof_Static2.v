From Coq Require Import Reals Lra Lia List Bool String Ascii.
From Coquelicot Require Import Coquelicot.
From Verif Require Import Vec3 Numpy Calculus Deriv Model_Spatial Proof_Spatial Model_Static Proof_Static.
Import ListNotations.
Open Scope R_scope.

Lemma vsub_nz p q : p <> q -> vsub p q <> vzero.
Proof.
  intros H E. apply H. destruct p, q. unfold vsub, vzero in E; cbn in E. apply V3_inj in E. destruct E as [A [B C]].
  apply vec3_eq; cbn; lra.
Qed.

Lemma is_grad_ext f g p d : (forall q, f q = g q) -> is_grad f p d -> is_grad g p d.
Proof. intros E H. eapply is_grad_ext_near; [|exact H]. exists 1. split; [lra|]. intros q _. apply E. Qed.
Lemma is_jac_ext F G p J : (forall q, F q = G q) -> is_jac F p J -> is_jac G p J.
Proof. intros E H. eapply is_jac_ext_near; [|exact H]. exists 1. split; [lra|]. intros q _. apply E. Qed.
Lemma is_curl_ext F G p c : (forall q, F q = G q) -> is_curl F p c -> is_curl G p c.
Proof. intros E [J [A B]]. exists J. split; [eapply is_jac_ext; eassumption|exact B]. Qed.
Lemma is_div_ext F G p c : (forall q, F q = G q) -> is_div F p c -> is_div G p c.
Proof. intros E [J [A B]]. exists J. split; [eapply is_jac_ext; eassumption|exact B]. Qed.

Lemma is_grad_scal k f p g : is_grad f p g -> is_grad (fun q => k * f q) p (vscal k g).
Proof. intros [A [B C]]. unfold is_grad, is_dx, is_dy, is_dz in *. unfold vscal; cbn [vx vy vz]. refine (conj _ (conj _ _)); apply D_scal; assumption. Qed.
Lemma is_grad_add f h p g g' : is_grad f p g -> is_grad h p g' -> is_grad (fun q => f q + h q) p (vadd g g').
Proof.
  intros [A [B C]] [A' [B' C']]. unfold is_grad, is_dx, is_dy, is_dz in *. unfold vadd; cbn [vx vy vz]. 
  refine (conj _ (conj _ _)).
  - apply (D_plus _ _ _ _ _ A A').
  - apply (D_plus _ _ _ _ _ B B').
  - apply (D_plus _ _ _ _ _ C C').
Qed.
Lemma is_grad_sub f h p g g' : is_grad f p g -> is_grad h p g' -> is_grad (fun q => f q - h q) p (vsub g g').
Proof.
  intros [A [B C]] [A' [B' C']]. unfold is_grad, is_dx, is_dy, is_dz in *. unfold vsub; cbn [vx vy vz]. 
  refine (conj _ (conj _ _)).
  - apply (D_minus _ _ _ _ _ A A').
  - apply (D_minus _ _ _ _ _ B B').
  - apply (D_minus _ _ _ _ _ C C').
Qed.
Lemma is_grad_const c p : is_grad (fun _ => c) p vzero.
Proof. unfold is_grad, is_dx, is_dy, is_dz, vzero; cbn [vx vy vz]. refine (conj _ (conj _ _)); apply D_const. Qed.
Lemma is_jac_scal k F p J : is_jac F p J -> is_jac (fun q => vscal k (F q)) p (mscal k J).
Proof. intros [A [B C]]. split; [|split]; apply is_grad_scal; assumption. Qed.
Lemma is_jac_add F G p J K : is_jac F p J -> is_jac G p K -> is_jac (fun q => vadd (F q) (G q)) p (madd J K).
Proof. intros [A [B C]] [A' [B' C']]. split; [|split]; apply is_grad_add; assumption. Qed.
Lemma is_curl_scal k F p c : is_curl F p c -> is_curl (fun q => vscal k (F q)) p (vscal k c).
Proof.
  intros [J [A B]]. exists (mscal k J). split; [apply is_jac_scal; exact A|]. rewrite B.
  destruct J as [[] [] []]; unfold curl_of; vring.
Qed.
Lemma is_div_scal k F p c : is_div F p c -> is_div (fun q => vscal k (F q)) p (k * c).
Proof.
  intros [J [A B]]. exists (mscal k J). split; [apply is_jac_scal; exact A|]. rewrite B.
  destruct J as [[] [] []]; vring.
Qed.
Lemma is_curl_add F G p c d : is_curl F p c -> is_curl G p d -> is_curl (fun q => vadd (F q) (G q)) p (vadd c d).
Proof.
  intros [J [A B]] [K [C D]]. exists (madd J K). split; [apply is_jac_add; assumption|]. rewrite B, D.
  destruct J as [[] [] []], K as [[] [] []]; unfold curl_of; vring.
Qed.
Lemma is_div_add F G p c d : is_div F p c -> is_div G p d -> is_div (fun q => vadd (F q) (G q)) p (c + d).
Proof.
  intros [J [A B]] [K [C D]]. exists (madd J K). split; [apply is_jac_add; assumption|]. rewrite B, D.
  destruct J as [[] [] []], K as [[] [] []]; vring.
Qed.

Lemma vdiv_scal v k : vdiv v k = vscal (/ k) v.
Proof. unfold vdiv, vscal. f_equal; unfold Rdiv; ring. Qed.

(** *** C38 *)
Lemma mdipole_magnetostatics s p : p <> md_loc s ->
  exists A B H : vec3 -> vec3,
    (forall q, mdipole_vector_potential s "cartesian" q = Ok (A q)) /\
    (forall q, mdipole_flux_density s "cartesian" q = Ok (B q)) /\
    (forall q, mdipole_field s "cartesian" q = Ok (H q)) /\
    is_curl A p (B p) /\ is_div A p 0 /\ is_div B p 0 /\ is_curl H p vzero /\
    (md_mu s <> 0 -> B p = vscal (md_mu s) (H p)).
Proof.
  intro N. apply vsub_nz in N.
  exists (md_A s), (md_B s), (fun q => vdiv (md_B s q) (md_mu s)).
  split; [reflexivity|]. split; [reflexivity|]. split; [reflexivity|].
  split; [|split; [|split; [|split]]].
  - apply (is_curl_shift (A0 (md_moment s) (md_mu s) (md_orient s))). apply dip_curlA. exact N.
  - apply (is_div_shift (A0 (md_moment s) (md_mu s) (md_orient s))). apply dip_divA. exact N.
  - apply (is_div_shift (B0 (md_moment s) (md_mu s) (md_orient s))). apply dip_divB. exact N.
  - apply (is_curl_ext (fun q => vscal (/ md_mu s) (md_B s q))). { intro q. symmetry; apply vdiv_scal. }
    replace vzero with (vscal (/ md_mu s) vzero) by (unfold vscal, vzero; cbn; f_equal; ring).
    apply is_curl_scal.
    apply (is_curl_shift (B0 (md_moment s) (md_mu s) (md_orient s))). apply dip_curlB. exact N.
  - intro Hm. rewrite vdiv_scal. destruct (md_B s p); unfold vscal; cbn. f_equal; field; exact Hm.
Qed.

(** *** C39 *)
Definition P0 (m mu : R) (v : vec3) : vec3 := vscal (m * mu / (4 * PI * vnorm v ^ 2)) (vdiv v (vnorm v)).
Ltac unf := unfold P0, vscal, vcross, vdiv, vsub, vdot; cbn [vx vy vz].
Lemma pole_div m mu v : v <> vzero -> is_div (P0 m mu) v 0.
Proof.
  intro H. destruct v as [x y z].
  pose proof (norm_dx x y z H). pose proof (norm_dy x y z H). pose proof (norm_dz x y z H).
  unfold is_div. unf. open_jac.
  1-9: der; side H.
  unfold mtrace; cbn [vx vy vz m0 m1 m2 INR pred]. norm_field' H.
Qed.
Lemma pole_curl m mu v : v <> vzero -> is_curl (P0 m mu) v vzero.
Proof.
  intro H. destruct v as [x y z].
  pose proof (norm_dx x y z H). pose proof (norm_dy x y z H). pose proof (norm_dz x y z H).
  unfold is_curl. unf. open_jac.
  1-9: der; side H.
  unfold curl_of, vzero; cbn [vx vy vz m0 m1 m2 INR pred]. apply vec3_eq; cbn [vx vy vz]; norm_field' H.
Qed.

Lemma mpole_inverse_square s p : p <> md_loc s ->
  exists B H : vec3 -> vec3,
    (forall q, mpole_flux_density s "cartesian" q = Ok (B q)) /\
    (forall q, mpole_field s "cartesian" q = Ok (H q)) /\
    is_curl B p vzero /\ is_div B p 0 /\
    (let r := vsub p (md_loc s) in
     B p = vscal (md_mu s * md_moment s / (4 * PI * vnorm r ^ 3)) r /\
     vnorm (B p) = Rabs (md_mu s * md_moment s) / (4 * PI * vnorm r ^ 2)) /\
    (md_mu s <> 0 -> B p = vscal (md_mu s) (H p)).
Proof.
  intro N. apply vsub_nz in N.
  exists (mp_B s), (fun q => vdiv (mp_B s q) (md_mu s)).
  split; [reflexivity|]. split; [reflexivity|].
  assert (E : mp_B s p = vscal (md_mu s * md_moment s / (4 * PI * vnorm (vsub p (md_loc s)) ^ 3)) (vsub p (md_loc s))).
  { unfold mp_B. destruct (vsub p (md_loc s)) as [x y z] eqn:Q. unf. f_equal; norm_field' N. }
  split; [|split; [|split; [split|]]].
  - apply (is_curl_shift (P0 (md_moment s) (md_mu s))). apply pole_curl. exact N.
  - apply (is_div_shift (P0 (md_moment s) (md_mu s))). apply pole_div. exact N.
  - exact E.
  - rewrite E, vnorm_scal.
    pose proof (vnorm_pos _ N) as Hp. set (r := vnorm _) in *. pose proof PI_RGT_0.
    assert (D : 0 < 4 * PI * r ^ 3) by (apply Rmult_lt_0_compat; [lra|apply pow_lt; exact Hp]).
    unfold Rdiv. rewrite Rabs_mult, (Rabs_pos_eq (/ _)) by (left; apply Rinv_0_lt_compat; exact D).
    field. split; lra.
  - intro Hm. rewrite vdiv_scal. destruct (mp_B s p); unfold vscal; cbn. f_equal; field; exact Hm.
Qed.

Lemma mpole_orientation_irrelevant m o o' loc mu c q :
  mpole_flux_density (MD m o loc mu) c q = mpole_flux_density (MD m o' loc mu) c q /\
  mpole_field (MD m o loc mu) c q = mpole_field (MD m o' loc mu) c q.
Proof. split; reflexivity. Qed.
