(** The prism's tensor and magnetic field on either side of a face. *)
From Coq Require Import Reals Lra Lia List Bool.
From Coquelicot Require Import Coquelicot.
From Verif Require Import Vec3 Calculus Deriv Numpy Integral Model_Prism Spec_Prism Spec_Jump Proof_Prism Proof_Prism2 Proof_Prism3 Proof_Prism4 Proof_Sphere Proof_Loop2 Proof_PrismC.
Import ListNotations.
Open Scope R_scope.

(** *** limits *)
Lemma lim_cont (P : vec3 -> Prop) f p : is_cont f p -> limit_at P f p (f p).
Proof. intros H e He. destruct (H e He) as [d [D1 D2]]. exists d. split; [exact D1|]. intros q _ Hq. apply D2, Hq. Qed.
Lemma lim_ext (P : vec3 -> Prop) f g p L : near p (fun q => P q -> f q = g q) -> limit_at P f p L -> limit_at P g p L.
Proof.
  intros [d0 [D0 E]] H e He. destruct (H e He) as [d [D1 D2]]. exists (Rmin d d0). split; [apply Rmin_glb_lt; assumption|]. intros q Pq Hq.
  pose proof (Rmin_l d d0). pose proof (Rmin_r d d0). rewrite <- (E q ltac:(lra) Pq). apply D2; [exact Pq|lra].
Qed.
Lemma lim_plus (P : vec3 -> Prop) f g p L M : limit_at P f p L -> limit_at P g p M -> limit_at P (fun q => f q + g q) p (L + M).
Proof.
  intros H K e He. destruct (H (e / 2) ltac:(lra)) as [d [D1 D2]]. destruct (K (e / 2) ltac:(lra)) as [d' [E1 E2]]. exists (Rmin d d'). split; [apply Rmin_glb_lt; assumption|].
  intros q Pq Hq. pose proof (Rmin_l d d'). pose proof (Rmin_r d d'). specialize (D2 q Pq ltac:(lra)). specialize (E2 q Pq ltac:(lra)).
  replace (f q + g q - (L + M)) with ((f q - L) + (g q - M)) by ring. eapply Rle_lt_trans; [apply Rabs_triang|lra].
Qed.
Lemma lim_scal (P : vec3 -> Prop) k f p L : limit_at P f p L -> limit_at P (fun q => k * f q) p (k * L).
Proof.
  intros H e He. assert (K : 0 < Rabs k + 1) by (pose proof (Rabs_pos k); lra). destruct (H (e / (Rabs k + 1)) ltac:(apply Rdiv_lt_0_compat; lra)) as [d [D1 D2]].
  exists d. split; [exact D1|]. intros q Pq Hq. specialize (D2 q Pq Hq). replace (k * f q - k * L) with (k * (f q - L)) by ring. rewrite Rabs_mult.
  apply Rle_lt_trans with (Rabs k * (e / (Rabs k + 1))); [apply Rmult_le_compat_l; [apply Rabs_pos|lra]|].
  apply Rmult_lt_reg_r with (Rabs k + 1); [exact K|]. replace (Rabs k * (e / (Rabs k + 1)) * (Rabs k + 1)) with (Rabs k * e) by (field; lra). lra.
Qed.
Lemma lim_minus (P : vec3 -> Prop) f g p L M : limit_at P f p L -> limit_at P g p M -> limit_at P (fun q => f q - g q) p (L - M).
Proof.
  intros H K. pose proof (lim_plus P f (fun q => -1 * g q) p L (-1 * M) H (lim_scal P (-1) g p M K)) as Q. replace (L - M) with (L + -1 * M) by ring.
  eapply lim_ext; [|exact Q]. exists 1. split; [lra|]. intros; ring.
Qed.
Lemma lim_eq (P : vec3 -> Prop) f p L M : L = M -> limit_at P f p L -> limit_at P f p M. Proof. intros ->. auto. Qed.

(** *** one corner *)
Lemma rad_comp u v w p : is_cont u p -> is_cont v p -> is_cont w p -> is_cont (fun q => rad (u q) (v q) (w q)) p.
Proof.
  intros U V W. unfold rad. apply (is_cont_comp sqrt (fun q => u q * u q + v q * v q + w q * w q)); [|apply continuous_sqrt].
  repeat apply is_cont_plus; apply is_cont_mult; assumption.
Qed.
Lemma Tk_comp u v w p : is_cont u p -> is_cont v p -> is_cont w p -> u p <> 0 -> is_cont (fun q => Tk (u q) (v q) (w q)) p.
Proof.
  intros U V W N. unfold Tk. apply (is_cont_comp atan (fun q => v q * w q / (u q * rad (u q) (v q) (w q)))); [|apply continuous_atan].
  unfold Rdiv. apply is_cont_mult; [apply is_cont_mult; assumption|]. apply (is_cont_comp Rinv (fun q => u q * rad (u q) (v q) (w q))).
  - apply is_cont_mult; [exact U|apply rad_comp; assumption].
  - apply continuous_Rinv. apply Rmult_integral_contrapositive. split; [exact N|]. intros Z. destruct (rad_0 _ _ _ Z). contradiction.
Qed.
Lemma Lk_comp u v w p : is_cont u p -> is_cont v p -> is_cont w p -> u p <> 0 \/ v p <> 0 -> is_cont (fun q => Lk (u q) (v q) (w q)) p.
Proof.
  intros U V W N. unfold Lk. apply (is_cont_comp ln (fun q => w q + rad (u q) (v q) (w q))).
  - apply is_cont_plus; [exact W|apply rad_comp; assumption].
  - apply continuity_pt_filterlim. apply derivable_continuous_pt. eexists. apply derivable_pt_lim_ln.
    pose proof (rad_sqr (u p) (v p) (w p)) as Q. pose proof (rad_abs (u p) (v p) (w p)) as (_ & _ & [A _]).
    destruct (Req_dec (w p + rad (u p) (v p) (w p)) 0) as [Z|Z]; [|lra]. exfalso. assert (E : rad (u p) (v p) (w p) = - w p) by lra. rewrite E in Q. destruct N as [N|N]; apply N; nra.
Qed.
Lemma sign_mult a b : sign (a * b) = sign a * sign b.
Proof.
  destruct (Rtotal_order a 0) as [A|[-> |A]], (Rtotal_order b 0) as [B|[-> |B]]; rewrite ?Rmult_0_l, ?Rmult_0_r, ?sign_0; try ring;
    rewrite ?(sign_eq_1 a), ?(sign_eq_m1 a), ?(sign_eq_1 b), ?(sign_eq_m1 b) by lra; [rewrite sign_eq_1 by nra|rewrite sign_eq_m1 by nra|rewrite sign_eq_m1 by nra|rewrite sign_eq_1 by nra]; ring.
Qed.
Lemma sign_inv a : sign (/ a) = sign a.
Proof.
  destruct (Rtotal_order a 0) as [A|[-> |A]]; [rewrite (sign_eq_m1 a), sign_eq_m1; [reflexivity|apply Rinv_lt_0_compat; lra|lra]|rewrite Rinv_0; reflexivity|].
  rewrite (sign_eq_1 a), sign_eq_1; [reflexivity|apply Rinv_0_lt_compat; lra|lra].
Qed.
Lemma atan_flip t : t <> 0 -> atan t = PI / 2 * sign t - atan (/ t).
Proof.
  intros N. destruct (Rtotal_order t 0) as [A|[A|A]]; [|contradiction|].
  - rewrite (sign_eq_m1 t A). pose proof (atan_inv (- t) ltac:(lra)) as K. rewrite Rinv_opp, !atan_opp in K. lra.
  - rewrite (sign_eq_1 t A). pose proof (atan_inv t A). lra.
Qed.
Lemma Tk_flip x y z : x <> 0 -> y <> 0 -> z <> 0 -> Tk x y z = PI / 2 * (sign x * sign y * sign z) - atan (x * rad x y z / (y * z)).
Proof.
  intros X Y Z. unfold Tk. assert (Rp : 0 < rad x y z) by (apply reg_rad, reg_of_nonzero; assumption).
  rewrite atan_flip.
  - f_equal; [|f_equal; field; repeat split; lra]. unfold Rdiv at 2. rewrite !sign_mult, sign_inv, !sign_mult. rewrite (sign_eq_1 _ Rp). ring.
  - unfold Rdiv. repeat apply Rmult_integral_contrapositive_currified; try assumption. apply Rinv_neq_0_compat. apply Rmult_integral_contrapositive_currified; lra.
Qed.
Lemma near_sign f p : is_cont f p -> f p <> 0 -> near p (fun q => sign (f q) = sign (f p)).
Proof.
  intros C N. destruct (C (Rabs (f p)) (Rabs_pos_lt _ N)) as [d [D1 D2]]. exists d. split; [exact D1|]. intros q Hq. specialize (D2 q Hq).
  destruct (Rtotal_order (f p) 0) as [A|[A|A]]; [|contradiction|].
  - rewrite (Rabs_left _ A) in D2. apply Rabs_def2 in D2. rewrite !sign_eq_m1 by lra. reflexivity.
  - rewrite (Rabs_right (f p)) in D2 by lra. apply Rabs_def2 in D2. rewrite !sign_eq_1 by lra. reflexivity.
Qed.
Lemma sign_nz a : sign a <> 0 -> a <> 0. Proof. intros H ->. apply H, sign_0. Qed.
Lemma Tk_lim (P : vec3 -> Prop) u v w p s : is_cont u p -> is_cont v p -> is_cont w p -> u p = 0 -> v p <> 0 -> w p <> 0 -> s <> 0 -> near p (fun q => P q -> sign (u q) = s) ->
  limit_at P (fun q => Tk (u q) (v q) (w q)) p (s * (PI / 2 * (sign (v p) * sign (w p)))).
Proof.
  intros U V W Z N M S H. pose proof (near_sign v p V N) as NV. pose proof (near_sign w p W M) as NW.
  apply (lim_ext P (fun q => s * (PI / 2 * (sign (v p) * sign (w p))) - atan (u q * rad (u q) (v q) (w q) / (v q * w q)))).
  - destruct H as [d [D1 D2]], NV as [e [E1 E2]], NW as [g [G1 G2]]. exists (Rmin d (Rmin e g)). split; [repeat apply Rmin_glb_lt; assumption|]. intros q Hq Pq.
    pose proof (Rmin_l d (Rmin e g)). pose proof (Rmin_r d (Rmin e g)). pose proof (Rmin_l e g). pose proof (Rmin_r e g).
    specialize (D2 q ltac:(lra) Pq). specialize (E2 q ltac:(lra)). specialize (G2 q ltac:(lra)).
    assert (sign (v p) <> 0) by (destruct (Rtotal_order (v p) 0) as [A|[A|A]]; [rewrite sign_eq_m1; lra|contradiction|rewrite sign_eq_1; lra]).
    assert (sign (w p) <> 0) by (destruct (Rtotal_order (w p) 0) as [A|[A|A]]; [rewrite sign_eq_m1; lra|contradiction|rewrite sign_eq_1; lra]).
    rewrite (Tk_flip (u q)); [rewrite D2, E2, G2; ring| | |]; apply sign_nz; congruence.
  - apply (lim_eq P _ p (s * (PI / 2 * (sign (v p) * sign (w p))) - atan (u p * rad (u p) (v p) (w p) / (v p * w p)))).
    + rewrite Z, Rmult_0_l. unfold Rdiv at 2. rewrite Rmult_0_l, atan_0. ring.
    + apply (lim_cont P (fun q => s * (PI / 2 * (sign (v p) * sign (w p))) - atan (u q * rad (u q) (v q) (w q) / (v q * w q)))).
      apply (is_cont_plus (fun _ => s * (PI / 2 * (sign (v p) * sign (w p)))) (fun q => - atan (u q * rad (u q) (v q) (w q) / (v q * w q)))); [apply is_cont_const|]. apply is_cont_opp.
      apply (is_cont_comp atan (fun q => u q * rad (u q) (v q) (w q) / (v q * w q))); [|apply continuous_atan]. unfold Rdiv. apply is_cont_mult; [apply is_cont_mult; [exact U|apply rad_comp; assumption]|].
      apply (is_cont_comp Rinv (fun q => v q * w q)); [apply is_cont_mult; assumption|]. apply continuous_Rinv. apply Rmult_integral_contrapositive_currified; assumption.
Qed.
Lemma Tk_zero y z : Tk 0 y z = 0.
Proof. unfold Tk. rewrite Rmult_0_l. unfold Rdiv. rewrite Rinv_0, Rmult_0_r. apply atan_0. Qed.

(** *** the corner sum of the normal component *)
Section NN.
Variables (P : vec3 -> Prop) (p : vec3) (a1 a2 b1 b2 c1 c2 : vec3 -> R).
Hypothesis A1 : is_cont a1 p.
Hypothesis A2 : is_cont a2 p.
Hypothesis B1 : is_cont b1 p.
Hypothesis B2 : is_cont b2 p.
Hypothesis C1 : is_cont c1 p.
Hypothesis C2 : is_cont c2 p.
Hypothesis Hb : b1 p < 0 < b2 p.
Hypothesis Hc : c1 p < 0 < c2 p.
Let S (f : R -> R -> R -> R) q := csum f (a1 q) (a2 q) (b1 q) (b2 q) (c1 q) (c2 q).
Lemma nn_max s : a1 p <> 0 -> a2 p = 0 -> s <> 0 -> near p (fun q => P q -> sign (a2 q) = s) -> limit_at P (S Tk) p (S Tk p + 2 * PI * s).
Proof.
  intros N Z S0 H. unfold S, csum. rewrite Z, !Tk_zero.
  pose proof (Tk_lim P a2 b1 c1 p s A2 B1 C1 Z ltac:(lra) ltac:(lra) S0 H) as L11. pose proof (Tk_lim P a2 b1 c2 p s A2 B1 C2 Z ltac:(lra) ltac:(lra) S0 H) as L12.
  pose proof (Tk_lim P a2 b2 c1 p s A2 B2 C1 Z ltac:(lra) ltac:(lra) S0 H) as L21. pose proof (Tk_lim P a2 b2 c2 p s A2 B2 C2 Z ltac:(lra) ltac:(lra) S0 H) as L22.
  rewrite (sign_eq_m1 (b1 p)), (sign_eq_m1 (c1 p)) in L11 by lra. rewrite (sign_eq_m1 (b1 p)), (sign_eq_1 (c2 p)) in L12 by lra.
  rewrite (sign_eq_1 (b2 p)), (sign_eq_m1 (c1 p)) in L21 by lra. rewrite (sign_eq_1 (b2 p)), (sign_eq_1 (c2 p)) in L22 by lra.
  pose proof (lim_cont P _ _ (Tk_comp a1 b1 c1 p A1 B1 C1 N)) as K11. pose proof (lim_cont P _ _ (Tk_comp a1 b1 c2 p A1 B1 C2 N)) as K12.
  pose proof (lim_cont P _ _ (Tk_comp a1 b2 c1 p A1 B2 C1 N)) as K21. pose proof (lim_cont P _ _ (Tk_comp a1 b2 c2 p A1 B2 C2 N)) as K22. cbv beta in K11, K12, K21, K22.
  eapply lim_eq; [|repeat first [apply lim_minus|apply lim_plus]; eassumption]. field.
Qed.
Lemma nn_min s : a2 p <> 0 -> a1 p = 0 -> s <> 0 -> near p (fun q => P q -> sign (a1 q) = s) -> limit_at P (S Tk) p (S Tk p - 2 * PI * s).
Proof.
  intros N Z S0 H. unfold S, csum. rewrite Z, !Tk_zero.
  pose proof (Tk_lim P a1 b1 c1 p s A1 B1 C1 Z ltac:(lra) ltac:(lra) S0 H) as L11. pose proof (Tk_lim P a1 b1 c2 p s A1 B1 C2 Z ltac:(lra) ltac:(lra) S0 H) as L12.
  pose proof (Tk_lim P a1 b2 c1 p s A1 B2 C1 Z ltac:(lra) ltac:(lra) S0 H) as L21. pose proof (Tk_lim P a1 b2 c2 p s A1 B2 C2 Z ltac:(lra) ltac:(lra) S0 H) as L22.
  rewrite (sign_eq_m1 (b1 p)), (sign_eq_m1 (c1 p)) in L11 by lra. rewrite (sign_eq_m1 (b1 p)), (sign_eq_1 (c2 p)) in L12 by lra.
  rewrite (sign_eq_1 (b2 p)), (sign_eq_m1 (c1 p)) in L21 by lra. rewrite (sign_eq_1 (b2 p)), (sign_eq_1 (c2 p)) in L22 by lra.
  pose proof (lim_cont P _ _ (Tk_comp a2 b1 c1 p A2 B1 C1 N)) as K11. pose proof (lim_cont P _ _ (Tk_comp a2 b1 c2 p A2 B1 C2 N)) as K12.
  pose proof (lim_cont P _ _ (Tk_comp a2 b2 c1 p A2 B2 C1 N)) as K21. pose proof (lim_cont P _ _ (Tk_comp a2 b2 c2 p A2 B2 C2 N)) as K22. cbv beta in K11, K12, K21, K22.
  eapply lim_eq; [|repeat first [apply lim_minus|apply lim_plus]; eassumption]. field.
Qed.
(** the other components are continuous *)
Lemma tt_lim (f : R -> R -> R -> R) : (forall u v w, is_cont u p -> is_cont v p -> is_cont w p -> v p <> 0 -> w p <> 0 -> is_cont (fun q => f (u q) (v q) (w q)) p) ->
  limit_at P (S f) p (S f p).
Proof.
  intros H. apply lim_cont. unfold S, csum.
  assert (M : forall g h, is_cont g p -> is_cont h p -> is_cont (fun q => g q - h q) p) by (intros g h Hg Hh; apply (is_cont_plus g (fun q => - h q)); [exact Hg|apply is_cont_opp, Hh]).
  repeat first [apply M|apply is_cont_plus]; (apply H; first [assumption|lra]).
Qed.
End NN.

(** *** the closed forms hold wherever no two faces' planes meet *)
Definition apart3 (x y z : R) : Prop := (x <> 0 \/ y <> 0) /\ (y <> 0 \/ z <> 0) /\ (z <> 0 \/ x <> 0).
Lemma apart3_rot x y z : apart3 x y z -> apart3 y z x. Proof. unfold apart3. tauto. Qed.
Lemma sum_pos x y z : x <> 0 \/ y <> 0 -> z + rad x y z <> 0.
Proof.
  intros N Z. pose proof (rad_sqr x y z) as Q. assert (E : rad x y z = - z) by lra. rewrite E in Q. destruct N as [N|N]; apply N; nra.
Qed.
Lemma fzz_any x y z : prism_fzz x y z = Tk z x y.
Proof.
  unfold prism_fzz. destruct (nonzero z) eqn:E.
  - unfold Tk. rewrite (rad_rot2 x y z). reflexivity.
  - assert (z = 0) as -> by (destruct (Req_dec z 0) as [Z|Z]; [exact Z|rewrite (proj2 (nonzero_true z) Z) in E; discriminate]). rewrite Tk_zero. reflexivity.
Qed.
Lemma fzx_any x y z : apart3 x y z -> prism_fzx x y z = - Lk x z y.
Proof.
  intros (A & B & C). unfold prism_fzx, Lk. rewrite (rad_swap2 x y z). rewrite (proj2 (Reqb_false _ _)); [reflexivity|].
  pose proof (sum_pos x z y ltac:(tauto)) as K. rewrite (rad_swap2 x y z) in K. exact K.
Qed.
Lemma fzy_any x y z : apart3 x y z -> prism_fzy x y z = - Lk y z x.
Proof.
  intros (A & B & C). unfold prism_fzy, Lk. rewrite (rad_rot x y z). rewrite (proj2 (Reqb_false _ _)); [reflexivity|].
  pose proof (sum_pos y z x ltac:(tauto)) as K. rewrite (rad_rot x y z) in K. exact K.
Qed.
Definition apart_box (b : box) (p : vec3) : Prop :=
  forall x y z, (x = ax b p \/ x = zx b p) -> (y = ay b p \/ y = zy b p) -> (z = az b p \/ z = zz b p) -> apart3 x y z.
Lemma tensor_any b p : apart_box b p ->
  eval_def_int b prism_fzz p 1 = gxx b p /\ eval_def_int b prism_fzx p 1 = gxy b p /\
  eval_def_int b prism_fzx p 0 = gxz b p /\ eval_def_int b prism_fzz p 2 = gyy b p /\
  eval_def_int b prism_fzy p 0 = gyz b p /\ eval_def_int b prism_fzz p 0 = gzz b p.
Proof.
  intro H. rewrite !eval0, !eval1, !eval2. unfold gxx, gxy, gxz, gyy, gyz, gzz, S3.
  refine (conj _ (conj _ (conj _ (conj _ (conj _ _))))); apply csum_ext; intros x y z X Y Z; specialize (H x y z X Y Z).
  - apply fzz_any.
  - rewrite fzx_any by (apply apart3_rot, H). unfold Lk. rewrite (rad_swap x y z). reflexivity.
  - apply fzx_any, H.
  - apply fzz_any.
  - apply fzy_any, H.
  - apply fzz_any.
Qed.

(** *** the six sums at a face *)
Section Face.
Variables (P : vec3 -> Prop) (p : vec3) (a1 a2 b1 b2 c1 c2 : vec3 -> R) (s : R).
Hypothesis A1 : is_cont a1 p.
Hypothesis A2 : is_cont a2 p.
Hypothesis B1 : is_cont b1 p.
Hypothesis B2 : is_cont b2 p.
Hypothesis C1 : is_cont c1 p.
Hypothesis C2 : is_cont c2 p.
Hypothesis Hb : b1 p < 0 < b2 p.
Hypothesis Hc : c1 p < 0 < c2 p.
Hypothesis S0 : s <> 0.
Hypothesis Hs : a1 p <> 0 /\ a2 p = 0 /\ near p (fun q => P q -> sign (a2 q) = s) \/ a2 p <> 0 /\ a1 p = 0 /\ near p (fun q => P q -> sign (a1 q) = - s).
Let S (f : R -> R -> R -> R) q := csum f (a1 q) (a2 q) (b1 q) (b2 q) (c1 q) (c2 q).
Lemma face_nn : limit_at P (S Tk) p (S Tk p + 2 * PI * s).
Proof.
  destruct Hs as [(N & Z & H)|(N & Z & H)].
  - apply nn_max; assumption.
  - eapply lim_eq; [|apply (nn_min P p a1 a2 b1 b2 c1 c2 A1 A2 B1 B2 C1 C2 Hb Hc (- s) N Z ltac:(lra) H)]. unfold S. ring.
Qed.
Lemma face_rest : limit_at P (S (fun x y z => Tk y z x)) p (S (fun x y z => Tk y z x) p) /\ limit_at P (S (fun x y z => Tk z x y)) p (S (fun x y z => Tk z x y) p) /\
  limit_at P (S (fun x y z => - Lk x y z)) p (S (fun x y z => - Lk x y z) p) /\ limit_at P (S (fun x y z => - Lk x z y)) p (S (fun x y z => - Lk x z y) p) /\
  limit_at P (S (fun x y z => - Lk y z x)) p (S (fun x y z => - Lk y z x) p).
Proof.
  clear Hs S0 s. refine (conj _ (conj _ (conj _ (conj _ _)))); apply tt_lim; try assumption; intros u v w U V W N M.
  - apply (Tk_comp v w u); assumption.
  - apply (Tk_comp w u v); assumption.
  - apply is_cont_opp, Lk_comp; tauto.
  - apply is_cont_opp, (Lk_comp u w v); tauto.
  - apply is_cont_opp, (Lk_comp v w u); tauto.
Qed.
End Face.

(** *** a side of a face *)
Definition side (b : box) (P : vec3 -> Prop) (s : R) : Prop := P = inside b /\ s = 1 \/ P = outside b /\ s = -1.
Lemma near_gt_cont f p e : is_cont f p -> e < f p -> near p (fun q => e < f q).
Proof.
  intros H L. eapply near_impl; [|apply (near_lt_cont (fun q => - f q) p (- e) (is_cont_opp f p H)); lra]. intros q Hq. cbv beta in Hq. lra.
Qed.
Lemma cont_off f p k : is_cont f p -> is_cont (fun q => k - f q) p.
Proof. intros H. apply (is_cont_plus (fun _ => k) (fun q => - f q)); [apply is_cont_const|apply is_cont_opp, H]. Qed.
Lemma box_cont b p : is_cont (ax b) p /\ is_cont (zx b) p /\ is_cont (ay b) p /\ is_cont (zy b) p /\ is_cont (az b) p /\ is_cont (zz b) p.
Proof. repeat split; apply cont_off; first [apply is_cont_x|apply is_cont_y|apply is_cont_z]. Qed.
Lemma near_all p (P : vec3 -> Prop) : (forall q, P q) -> near p P. Proof. intros H. exists 1. split; [lra|]. auto. Qed.
(** the six integrals as a matrix *)
Definition T6 (b : box) (p : vec3) : mat3 :=
  let gxx := eval_def_int b prism_fzz p 1 in let gxy := eval_def_int b prism_fzx p 1 in let gxz := eval_def_int b prism_fzx p 0 in
  let gyy := eval_def_int b prism_fzz p 2 in let gyz := eval_def_int b prism_fzy p 0 in let gzz := eval_def_int b prism_fzz p 0 in
  M3 (V3 gxx gxy gxz) (V3 gxy gyy gyz) (V3 gxz gyz gzz).
Definition G6 (b : box) (p : vec3) : mat3 := M3 (V3 (gxx b p) (gxy b p) (gxz b p)) (V3 (gxy b p) (gyy b p) (gyz b p)) (V3 (gxz b p) (gyz b p) (gzz b p)).
Lemma T6_G6 b p : apart_box b p -> T6 b p = G6 b p.
Proof. intros H. destruct (tensor_any b p H) as (E1 & E2 & E3 & E4 & E5 & E6). unfold T6, G6. cbv zeta. rewrite E1, E2, E3, E4, E5, E6. reflexivity. Qed.
Lemma vlim_ext (P : vec3 -> Prop) f g p L : near p (fun q => f q = g q) -> vlimit_at P f p L -> vlimit_at P g p L.
Proof. intros N (A & B & C). repeat split; (eapply lim_ext; [|eassumption]; eapply near_impl; [|exact N]; intros q Hq _; cbv beta in *; rewrite Hq; reflexivity). Qed.
Lemma mlim_ext (P : vec3 -> Prop) f g p L : near p (fun q => f q = g q) -> mlimit_at P f p L -> mlimit_at P g p L.
Proof. intros N (A & B & C). refine (conj _ (conj _ _)); (eapply vlim_ext; [|eassumption]; eapply near_impl; [|exact N]; intros q Hq; cbv beta in *; rewrite Hq; reflexivity). Qed.
Lemma lim_eq' (P : vec3 -> Prop) f g p L M : (forall q, f q = g q) -> L = M -> limit_at P f p L -> limit_at P g p M.
Proof. intros E -> H. eapply lim_ext; [|exact H]. apply near_all. intros q _. apply E. Qed.

Ltac apart_tac := let x := fresh in let y := fresh in let z := fresh in intros x y z X Y Z; unfold apart3, ax, ay, az, zx, zy, zz in *; destruct X as [-> | ->], Y as [-> | ->], Z as [-> | ->];
  repeat split; first [left; lra|right; lra].

(** the six sums with the axes renamed *)
Definition c1 (f : R -> R -> R -> R) b q := csum f (ay b q) (zy b q) (az b q) (zz b q) (ax b q) (zx b q).
Definition c2 (f : R -> R -> R -> R) b q := csum f (az b q) (zz b q) (ax b q) (zx b q) (ay b q) (zy b q).
Lemma rot1 b q : gyy b q = c1 Tk b q /\ gzz b q = c1 (fun x y z => Tk y z x) b q /\ gxx b q = c1 (fun x y z => Tk z x y) b q /\
  gyz b q = c1 (fun x y z => - Lk x y z) b q /\ gxy b q = c1 (fun x y z => - Lk x z y) b q /\ gxz b q = c1 (fun x y z => - Lk y z x) b q.
Proof. unfold gxx, gyy, gzz, gxy, gxz, gyz, c1, S3. repeat split; rewrite csum_rot; apply csum_ext; intros x y z _ _ _; rewrite ?(Lk_swap z x y), ?(Lk_swap y x z), ?(Lk_swap x z y), ?(Lk_swap z y x); reflexivity. Qed.
Lemma rot2 b q : gzz b q = c2 Tk b q /\ gxx b q = c2 (fun x y z => Tk y z x) b q /\ gyy b q = c2 (fun x y z => Tk z x y) b q /\
  gxz b q = c2 (fun x y z => - Lk x y z) b q /\ gyz b q = c2 (fun x y z => - Lk x z y) b q /\ gxy b q = c2 (fun x y z => - Lk y z x) b q.
Proof. unfold gxx, gyy, gzz, gxy, gxz, gyz, c2, S3. repeat split; rewrite csum_rot2; apply csum_ext; intros x y z _ _ _; rewrite ?(Lk_swap z x y), ?(Lk_swap y x z), ?(Lk_swap x z y), ?(Lk_swap z y x); reflexivity. Qed.

Lemma face_limit b p n P s : on_face b p n -> ordered b -> side b P s -> near p (apart_box b) /\ mlimit_at P (G6 b) p (madd (G6 b p) (mscal (2 * PI * s) (dyad n))).
Proof.
  intros F (O1 & O2 & O3) Sd. destruct (box_cont b p) as (K1 & K2 & K3 & K4 & K5 & K6).
  assert (S0 : s <> 0) by (destruct Sd as [[_ ->]|[_ ->]]; lra).
  assert (NX : vx (b_min b) < vx p -> near p (fun q => vx (b_min b) < vx q)) by (apply near_gt_cont, is_cont_x).
  assert (NX' : vx p < vx (b_max b) -> near p (fun q => vx q < vx (b_max b))) by (apply near_lt_cont, is_cont_x).
  assert (NY : vy (b_min b) < vy p -> near p (fun q => vy (b_min b) < vy q)) by (apply near_gt_cont, is_cont_y).
  assert (NY' : vy p < vy (b_max b) -> near p (fun q => vy q < vy (b_max b))) by (apply near_lt_cont, is_cont_y).
  assert (NZ : vz (b_min b) < vz p -> near p (fun q => vz (b_min b) < vz q)) by (apply near_gt_cont, is_cont_z).
  assert (NZ' : vz p < vz (b_max b) -> near p (fun q => vz q < vz (b_max b))) by (apply near_lt_cont, is_cont_z).
  destruct F as [(I1 & I2 & H)|[(I1 & I2 & H)|(I1 & I2 & H)]].
  - assert (N4 : near p (fun q => vy (b_min b) < vy q < vy (b_max b) /\ vz (b_min b) < vz q < vz (b_max b))) by (repeat apply near_and; tauto).
    split; [eapply near_impl; [|exact N4]; intros q [Q1 Q2]; apart_tac|].
    assert (Hs : ax b p <> 0 /\ zx b p = 0 /\ near p (fun q => P q -> sign (zx b q) = s) \/ zx b p <> 0 /\ ax b p = 0 /\ near p (fun q => P q -> sign (ax b q) = - s)).
    { unfold ax, zx. destruct H as [[E _]|[E _]]; [left|right]; (split; [lra|split; [lra|]]).
      - eapply near_impl; [|exact (near_and _ _ _ N4 (NX ltac:(lra)))]. intros q (Q & Q') HP. destruct Sd as [[-> ->]|[-> ->]]; unfold inside, outside in HP; [apply sign_eq_1|apply sign_eq_m1]; lra.
      - eapply near_impl; [|exact (near_and _ _ _ N4 (NX' ltac:(lra)))]. intros q (Q & Q') HP. destruct Sd as [[-> ->]|[-> ->]]; unfold inside, outside in HP; [apply sign_eq_m1|replace (- -1) with 1 by ring; apply sign_eq_1]; lra. }
    pose proof (face_nn P p (ax b) (zx b) (ay b) (zy b) (az b) (zz b) s K1 K2 K3 K4 K5 K6 ltac:(unfold ay, zy; lra) ltac:(unfold az, zz; lra) S0 Hs) as Lxx.
    destruct (face_rest P p (ax b) (zx b) (ay b) (zy b) (az b) (zz b) K1 K2 K3 K4 K5 K6 ltac:(unfold ay, zy; lra) ltac:(unfold az, zz; lra)) as (Lyy & Lzz & Lxy & Lxz & Lyz).
    unfold mlimit_at, vlimit_at, G6, madd, mscal, dyad, vadd, vscal; cbn [m0 m1 m2 vx vy vz].
    change (limit_at P (gxx b) p (gxx b p + 2 * PI * s)) in Lxx. change (limit_at P (gyy b) p (gyy b p)) in Lyy. change (limit_at P (gzz b) p (gzz b p)) in Lzz.
    change (limit_at P (gxy b) p (gxy b p)) in Lxy. change (limit_at P (gxz b) p (gxz b p)) in Lxz. change (limit_at P (gyz b) p (gyz b p)) in Lyz.
    destruct H as [[_ ->]|[_ ->]]; cbn [vx vy vz]; repeat split; (eapply lim_eq; [|first [exact Lxx|exact Lyy|exact Lzz|exact Lxy|exact Lxz|exact Lyz]]; ring).
  - assert (N4 : near p (fun q => vz (b_min b) < vz q < vz (b_max b) /\ vx (b_min b) < vx q < vx (b_max b))) by (repeat apply near_and; tauto).
    split; [eapply near_impl; [|exact N4]; intros q [Q1 Q2]; apart_tac|].
    assert (Hs : ay b p <> 0 /\ zy b p = 0 /\ near p (fun q => P q -> sign (zy b q) = s) \/ zy b p <> 0 /\ ay b p = 0 /\ near p (fun q => P q -> sign (ay b q) = - s)).
    { unfold ay, zy. destruct H as [[E _]|[E _]]; [left|right]; (split; [lra|split; [lra|]]).
      - eapply near_impl; [|exact (near_and _ _ _ N4 (NY ltac:(lra)))]. intros q (Q & Q') HP. destruct Sd as [[-> ->]|[-> ->]]; unfold inside, outside in HP; [apply sign_eq_1|apply sign_eq_m1]; lra.
      - eapply near_impl; [|exact (near_and _ _ _ N4 (NY' ltac:(lra)))]. intros q (Q & Q') HP. destruct Sd as [[-> ->]|[-> ->]]; unfold inside, outside in HP; [apply sign_eq_m1|replace (- -1) with 1 by ring; apply sign_eq_1]; lra. }
    pose proof (face_nn P p (ay b) (zy b) (az b) (zz b) (ax b) (zx b) s K3 K4 K5 K6 K1 K2 ltac:(unfold az, zz; lra) ltac:(unfold ax, zx; lra) S0 Hs) as Lyy.
    destruct (face_rest P p (ay b) (zy b) (az b) (zz b) (ax b) (zx b) K3 K4 K5 K6 K1 K2 ltac:(unfold az, zz; lra) ltac:(unfold ax, zx; lra)) as (Lzz & Lxx & Lyz & Lyx & Lzx).
    unfold mlimit_at, vlimit_at, G6, madd, mscal, dyad, vadd, vscal; cbn [m0 m1 m2 vx vy vz].
    assert (W : limit_at P (gyy b) p (gyy b p + 2 * PI * s) /\ limit_at P (gzz b) p (gzz b p) /\ limit_at P (gxx b) p (gxx b p) /\ limit_at P (gyz b) p (gyz b p) /\ limit_at P (gxy b) p (gxy b p) /\ limit_at P (gxz b) p (gxz b p)).
    { destruct (rot1 b p) as (E1 & E2 & E3 & E4 & E5 & E6). rewrite E1, E2, E3, E4, E5, E6.
      refine (conj (lim_eq' _ _ _ _ _ _ _ _ Lyy) (conj (lim_eq' _ _ _ _ _ _ _ _ Lzz) (conj (lim_eq' _ _ _ _ _ _ _ _ Lxx) (conj (lim_eq' _ _ _ _ _ _ _ _ Lyz) (conj (lim_eq' _ _ _ _ _ _ _ _ Lyx) (lim_eq' _ _ _ _ _ _ _ _ Lzx))))));
        solve [reflexivity|intros q; destruct (rot1 b q) as (F1 & F2 & F3 & F4 & F5 & F6); symmetry; assumption]. }
    destruct W as (W1 & W2 & W3 & W4 & W5 & W6).
    destruct H as [[_ ->]|[_ ->]]; cbn [vx vy vz]; repeat split; (eapply lim_eq; [|first [exact W1|exact W2|exact W3|exact W4|exact W5|exact W6]]; ring).
  - assert (N4 : near p (fun q => vx (b_min b) < vx q < vx (b_max b) /\ vy (b_min b) < vy q < vy (b_max b))) by (repeat apply near_and; tauto).
    split; [eapply near_impl; [|exact N4]; intros q [Q1 Q2]; apart_tac|].
    assert (Hs : az b p <> 0 /\ zz b p = 0 /\ near p (fun q => P q -> sign (zz b q) = s) \/ zz b p <> 0 /\ az b p = 0 /\ near p (fun q => P q -> sign (az b q) = - s)).
    { unfold az, zz. destruct H as [[E _]|[E _]]; [left|right]; (split; [lra|split; [lra|]]).
      - eapply near_impl; [|exact (near_and _ _ _ N4 (NZ ltac:(lra)))]. intros q (Q & Q') HP. destruct Sd as [[-> ->]|[-> ->]]; unfold inside, outside in HP; [apply sign_eq_1|apply sign_eq_m1]; lra.
      - eapply near_impl; [|exact (near_and _ _ _ N4 (NZ' ltac:(lra)))]. intros q (Q & Q') HP. destruct Sd as [[-> ->]|[-> ->]]; unfold inside, outside in HP; [apply sign_eq_m1|replace (- -1) with 1 by ring; apply sign_eq_1]; lra. }
    pose proof (face_nn P p (az b) (zz b) (ax b) (zx b) (ay b) (zy b) s K5 K6 K1 K2 K3 K4 ltac:(unfold ax, zx; lra) ltac:(unfold ay, zy; lra) S0 Hs) as Lyy.
    destruct (face_rest P p (az b) (zz b) (ax b) (zx b) (ay b) (zy b) K5 K6 K1 K2 K3 K4 ltac:(unfold ax, zx; lra) ltac:(unfold ay, zy; lra)) as (Lzz & Lxx & Lyz & Lyx & Lzx).
    unfold mlimit_at, vlimit_at, G6, madd, mscal, dyad, vadd, vscal; cbn [m0 m1 m2 vx vy vz].
    assert (W : limit_at P (gzz b) p (gzz b p + 2 * PI * s) /\ limit_at P (gxx b) p (gxx b p) /\ limit_at P (gyy b) p (gyy b p) /\ limit_at P (gxz b) p (gxz b p) /\ limit_at P (gyz b) p (gyz b p) /\ limit_at P (gxy b) p (gxy b p)).
    { destruct (rot2 b p) as (E1 & E2 & E3 & E4 & E5 & E6). rewrite E1, E2, E3, E4, E5, E6.
      refine (conj (lim_eq' _ _ _ _ _ _ _ _ Lyy) (conj (lim_eq' _ _ _ _ _ _ _ _ Lzz) (conj (lim_eq' _ _ _ _ _ _ _ _ Lxx) (conj (lim_eq' _ _ _ _ _ _ _ _ Lyz) (conj (lim_eq' _ _ _ _ _ _ _ _ Lyx) (lim_eq' _ _ _ _ _ _ _ _ Lzx))))));
        solve [reflexivity|intros q; destruct (rot2 b q) as (F1 & F2 & F3 & F4 & F5 & F6); symmetry; assumption]. }
    destruct W as (W1 & W2 & W3 & W4 & W5 & W6).
    destruct H as [[_ ->]|[_ ->]]; cbn [vx vy vz]; repeat split; (eapply lim_eq; [|first [exact W1|exact W2|exact W3|exact W4|exact W5|exact W6]]; ring).
Qed.

Lemma T6_limit b p n P s : on_face b p n -> ordered b -> side b P s -> mlimit_at P (T6 b) p (madd (T6 b p) (mscal (2 * PI * s) (dyad n))).
Proof.
  intros F O Sd. destruct (face_limit b p n P s F O Sd) as [N L]. rewrite (T6_G6 b p (near_self _ _ N)). eapply mlim_ext; [|exact L].
  eapply near_impl; [|exact N]. intros q Hq. symmetry. apply T6_G6, Hq.
Qed.
Lemma grav_T6 G b rho q : gravitational_gradient G b rho q = mscal (- G * rho) (T6 b q). Proof. reflexivity. Qed.
Lemma mag_T6 b m q : magnetic_field b m q = vscal (- 1 / (4 * PI)) (mvec (T6 b q) m). Proof. reflexivity. Qed.
Lemma mlim_scal (P : vec3 -> Prop) k f p L : mlimit_at P f p L -> mlimit_at P (fun q => mscal k (f q)) p (mscal k L).
Proof. intros ((A & B & C) & (D & E & F) & (H & I & J)). unfold mlimit_at, vlimit_at, mscal, vscal; cbn [m0 m1 m2 vx vy vz]. repeat split; apply lim_scal; assumption. Qed.
Lemma mlim_vec (P : vec3 -> Prop) k f p L m : mlimit_at P f p L -> vlimit_at P (fun q => vscal k (mvec (f q) m)) p (vscal k (mvec L m)).
Proof.
  intros ((A & B & C) & (D & E & F) & (H & I & J)). unfold vlimit_at, mvec, vdot, vscal; cbn [m0 m1 m2 vx vy vz].
  assert (Q : forall f1 f2 f3 l1 l2 l3, limit_at P f1 p l1 -> limit_at P f2 p l2 -> limit_at P f3 p l3 ->
    limit_at P (fun q => k * (f1 q * vx m + f2 q * vy m + f3 q * vz m)) p (k * (l1 * vx m + l2 * vy m + l3 * vz m))).
  { intros f1 f2 f3 l1 l2 l3 Q1 Q2 Q3. apply lim_scal.
    pose proof (lim_plus P _ _ p _ _ (lim_plus P _ _ p _ _ (lim_scal P (vx m) _ p _ Q1) (lim_scal P (vy m) _ p _ Q2)) (lim_scal P (vz m) _ p _ Q3)) as Q.
    eapply lim_eq'; [| |exact Q]; [intros q; cbv beta; ring|ring]. }
  repeat split; apply Q; assumption.
Qed.
Definition grav_side G b rho p n s := madd (gravitational_gradient G b rho p) (mscal (- 2 * PI * G * rho * s) (dyad n)).
Lemma grav_limit G b rho p n P s : on_face b p n -> ordered b -> side b P s -> mlimit_at P (gravitational_gradient G b rho) p (grav_side G b rho p n s).
Proof.
  intros F O Sd. pose proof (mlim_scal P (- G * rho) _ p _ (T6_limit b p n P s F O Sd)) as L.
  replace (grav_side G b rho p n s) with (mscal (- G * rho) (madd (T6 b p) (mscal (2 * PI * s) (dyad n)))); [exact L|].
  unfold grav_side. rewrite grav_T6. unfold mscal, madd, dyad, vscal, vadd; cbn [m0 m1 m2 vx vy vz]. f_equal; f_equal; ring.
Qed.
Definition mag_side b m p n s := vsub (magnetic_field b m p) (vscal (s / 2 * vdot n m) n).
Lemma mag_limit b m p n P s : on_face b p n -> ordered b -> side b P s -> vlimit_at P (magnetic_field b m) p (mag_side b m p n s).
Proof.
  intros F O Sd. pose proof (mlim_vec P (- 1 / (4 * PI)) _ p _ m (T6_limit b p n P s F O Sd)) as L.
  replace (mag_side b m p n s) with (vscal (- 1 / (4 * PI)) (mvec (madd (T6 b p) (mscal (2 * PI * s) (dyad n))) m)); [exact L|].
  unfold mag_side. rewrite mag_T6. unfold mscal, madd, dyad, vscal, vadd, vsub, mvec, vdot; cbn [m0 m1 m2 vx vy vz]. pose proof PI_RGT_0. f_equal; field; lra.
Qed.
Lemma face_unit b p n : on_face b p n -> vdot n n = 1.
Proof. intros [(_ & _ & [[_ ->]|[_ ->]])|[(_ & _ & [[_ ->]|[_ ->]])|(_ & _ & [[_ ->]|[_ ->]])]]; unfold vdot; cbn [vx vy vz]; ring. Qed.
Lemma face_inside b p n : on_face b p n -> ordered b -> is_inside b p = true.
Proof.
  intros H (O1 & O2 & O3). apply is_inside_spec. unfold on_face in H. repeat split; lra.
Qed.
Lemma both_sides b p n : on_face b p n -> ordered b -> forall d, 0 < d ->
  (exists q, inside b q /\ vnorm (vsub q p) < d) /\ (exists q, outside b q /\ vnorm (vsub q p) < d).
Proof.
  intros F (O1 & O2 & O3) d Hd.
  set (w := Rmin (vx (b_max b) - vx (b_min b)) (Rmin (vy (b_max b) - vy (b_min b)) (vz (b_max b) - vz (b_min b)))).
  assert (W : 0 < w) by (unfold w; repeat apply Rmin_glb_lt; lra).
  assert (W1 : w <= vx (b_max b) - vx (b_min b)) by apply Rmin_l.
  assert (W2 : w <= vy (b_max b) - vy (b_min b)) by (unfold w; eapply Rle_trans; [apply Rmin_r|apply Rmin_l]).
  assert (W3 : w <= vz (b_max b) - vz (b_min b)) by (unfold w; eapply Rle_trans; [apply Rmin_r|apply Rmin_r]).
  set (t := Rmin d w / 2). assert (T : 0 < t) by (unfold t; assert (0 < Rmin d w) by (apply Rmin_glb_lt; lra); lra).
  assert (T1 : t < d) by (unfold t; pose proof (Rmin_l d w); lra). assert (T2 : t < w) by (unfold t; pose proof (Rmin_r d w); lra).
  assert (Nm : forall k, Rabs k = t -> vnorm (vsub (vadd p (vscal k n)) p) < d).
  { intros k Hk. replace (vsub (vadd p (vscal k n)) p) with (vscal k n) by (unfold vsub, vadd, vscal; destruct p, n; cbn; f_equal; ring).
    rewrite vnorm_scal, Hk. assert (vnorm n = 1) as -> by (unfold vnorm, vnorm2; pose proof (face_unit b p n F) as U; unfold vdot in U; rewrite <- sqrt_1; f_equal; lra). lra. }
  split; [exists (vadd p (vscal (- t) n))|exists (vadd p (vscal t n))]; (split; [|apply Nm; rewrite ?Rabs_Ropp; apply Rabs_right; lra]);
    unfold inside, outside, vadd, vscal; cbn [vx vy vz]; clearbody t w;
    destruct F as [(I1 & I2 & [[E ->]|[E ->]])|[(I1 & I2 & [[E ->]|[E ->]])|(I1 & I2 & [[E ->]|[E ->]])]]; cbn [vx vy vz]; lra.
Qed.
Lemma vlim_near (P : vec3 -> Prop) f g p L : (forall q, P q -> f q = g q) -> vlimit_at P f p L -> vlimit_at P g p L.
Proof. intros E (A & B & C). repeat split; (eapply lim_ext; [|eassumption]; apply near_all; intros q Hq; cbv beta; rewrite (E q Hq); reflexivity). Qed.
Lemma vlim_affine (P : vec3 -> Prop) k c f p L : vlimit_at P f p L -> vlimit_at P (fun q => vscal k (vadd (f q) c)) p (vscal k (vadd L c)).
Proof.
  intros (A & B & C). unfold vlimit_at, vscal, vadd; cbn [vx vy vz]. repeat split; apply lim_scal; (apply (lim_plus P _ (fun _ => _)); [assumption|apply (lim_cont P (fun _ => _)), is_cont_const]).
Qed.
Lemma flux_in mu0 b m p n : on_face b p n -> ordered b -> vlimit_at (inside b) (flux_at mu0 b m) p (vscal mu0 (vadd (mag_side b m p n 1) m)).
Proof.
  intros F O. eapply vlim_near; [|apply vlim_affine, (mag_limit b m p n (inside b) 1 F O); left; split; reflexivity].
  intros q Hq. cbv beta. rewrite flux_at_eq, (proj2 (is_inside_spec b q)); [reflexivity|]. unfold inside in Hq. lra.
Qed.
Lemma flux_out mu0 b m p n : on_face b p n -> ordered b -> vlimit_at (outside b) (flux_at mu0 b m) p (vscal mu0 (mag_side b m p n (-1))).
Proof.
  intros F O. replace (mag_side b m p n (-1)) with (vadd (mag_side b m p n (-1)) vzero) by (unfold vadd, vzero; destruct (mag_side b m p n (-1)); cbn; f_equal; ring).
  eapply vlim_near; [|apply vlim_affine, (mag_limit b m p n (outside b) (-1) F O); right; split; reflexivity].
  intros q Hq. cbv beta. rewrite flux_at_eq. destruct (is_inside b q) eqn:E; [apply is_inside_spec in E; exfalso; unfold outside in Hq; lra|].
  unfold vadd, vzero, vscal; destruct (magnetic_field b m q); cbn; f_equal; ring.
Qed.
Lemma flux_face mu0 b m p n : on_face b p n -> ordered b -> flux_at mu0 b m p = vscal mu0 (vadd (magnetic_field b m p) m).
Proof. intros F O. rewrite flux_at_eq, (face_inside b p n F O). reflexivity. Qed.
Lemma flux_map mu0 b m pts : magnetic_flux_density mu0 b m pts = Ok (map (flux_at mu0 b m) pts).
Proof. rewrite flux_pointwise. f_equal. apply map_ext. intros q. rewrite flux_at_eq. reflexivity. Qed.
Lemma lim_dot (P : vec3 -> Prop) n f p L : vlimit_at P f p L -> limit_at P (fun q => vdot n (f q)) p (vdot n L).
Proof. intros (A & B & C). unfold vdot. repeat apply lim_plus; apply lim_scal; assumption. Qed.
Lemma lim_unique (P : vec3 -> Prop) f p L M : (forall d, 0 < d -> exists q, P q /\ vnorm (vsub q p) < d) -> limit_at P f p L -> limit_at P f p M -> L = M.
Proof.
  intros N H K. destruct (Req_dec L M) as [E|E]; [exact E|exfalso]. assert (D : 0 < Rabs (L - M) / 2) by (assert (0 < Rabs (L - M)) by (apply Rabs_pos_lt; lra); lra).
  destruct (H _ D) as [d [D1 D2]], (K _ D) as [e [E1 E2]]. destruct (N (Rmin d e)) as [q [Q1 Q2]]; [apply Rmin_glb_lt; assumption|].
  pose proof (Rmin_l d e). pose proof (Rmin_r d e). specialize (D2 q Q1 ltac:(lra)). specialize (E2 q Q1 ltac:(lra)).
  assert (T : Rabs (L - M) <= Rabs (f q - M) + Rabs (f q - L)) by (replace (L - M) with ((f q - M) + - (f q - L)) by ring; rewrite <- (Rabs_Ropp (f q - L)); apply Rabs_triang). lra.
Qed.
