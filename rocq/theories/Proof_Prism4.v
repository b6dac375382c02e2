(** Corner-sum facts, kernel derivatives, edge limits and the magnetic prism. *)
From Coq Require Import Reals Lra Lia List Bool.
From Coquelicot Require Import Coquelicot.
From Verif Require Import Vec3 Calculus Deriv Numpy Integral Model_Prism Spec_Prism Proof_Prism Proof_Prism2 Proof_Prism3.
Import ListNotations.
Open Scope R_scope.

(** ** C15 *)
Lemma corner_sum_vanishes b f p n :
  (exists h : R -> R -> R, (forall x y z, f x y z = h x y) \/ (forall x y z, f x y z = h y z) \/ (forall x y z, f x y z = h x z)) ->
  eval_def_int b f p n = 0.
Proof.
  intros [h H]. unfold eval_def_int. cbv zeta. destruct H as [H|[H|H]]; rewrite !H; ring.
Qed.

Lemma corner_sum_alternating b f p :
  eval_def_int b f p 0 =
  let X s := if s : bool then vx (b_max b) - vx p else vx (b_min b) - vx p in
  let Y s := if s : bool then vy (b_max b) - vy p else vy (b_min b) - vy p in
  let Z s := if s : bool then vz (b_max b) - vz p else vz (b_min b) - vz p in
  let term i j k := (if xorb i (xorb j k) then 1 else -1) * f (X i) (Y j) (Z k) in
  term true true true + term true true false + term true false true + term true false false +
  term false true true + term false true false + term false false true + term false false false.
Proof. rewrite eval0. unfold csum, ax, ay, az, zx, zy, zz; cbn. ring. Qed.

Lemma corner_sum_cycle b f p :
  eval_def_int b f p 1 = eval_def_int b (fun x y z => f y z x) p 0 /\
  eval_def_int b f p 2 = eval_def_int b (fun x y z => f z x y) p 0.
Proof. rewrite !eval0, eval1, eval2. split; reflexivity. Qed.

Lemma corner_sum_integral b p (f fx fxy fxyz : R -> R -> R -> R) : ordered b ->
  (forall x y z, vx (b_min b) <= x <= vx (b_max b) -> vy (b_min b) <= y <= vy (b_max b) -> vz (b_min b) <= z <= vz (b_max b) ->
     let u := x - vx p in let v := y - vy p in let w := z - vz p in
     is_derive (fun t => f t v w) u (fx u v w) /\ is_derive (fun t => fx u t w) v (fxy u v w) /\
     is_derive (fun t => fxy u v t) w (fxyz u v w) /\
     continuous (fun t => fx t v w) u /\ continuous (fun t => fxy u t w) v /\ continuous (fun t => fxyz u v t) w) ->
  is_triple_integral (fun x y z => fxyz (x - vx p) (y - vy p) (z - vz p))
    (vx (b_min b)) (vx (b_max b)) (vy (b_min b)) (vy (b_max b)) (vz (b_min b)) (vz (b_max b))
    (eval_def_int b f p 0).
Proof.
  intros (A & B & C) H. rewrite eval0. apply (is_triple_shift fxyz). unfold ax, zx, ay, zy, az, zz.
  eapply (triple_FTC f fx fxy fxyz); try lra.
  intros x y z Hx Hy Hz. specialize (H (x + vx p) (y + vy p) (z + vz p) ltac:(lra) ltac:(lra) ltac:(lra)).
  cbv zeta in H. replace (x + vx p - vx p) with x in H by ring. replace (y + vy p - vy p) with y in H by ring.
  replace (z + vz p - vz p) with z in H by ring. exact H.
Qed.

(** ** C16 *)
Lemma near_nz (x t : R) : x <> 0 -> Rabs (t - x) < Rabs x -> t <> 0.
Proof. intros H K E. subst. rewrite Rminus_0_l, Rabs_Ropp in K. lra. Qed.

Lemma kernel_f_z x y z : nz3 x y z ->
  is_derive (fun t => prism_f x y t) z (- (prism_fz x y z + z * z * x / (z * z + x * x) + z * z * y / (z * z + y * y))).
Proof.
  intro N. apply (D_ext (fun t => F t x y)); [intro t; rewrite prism_f_form; apply F_rot2|].
  eapply is_derive_eq; [apply dF_x, nz3_reg, nz_rot2, N|]. rewrite prism_fz_form. unfold ext2. ring.
Qed.

Lemma kernel_f_sym x y z : prism_f x y z = prism_f y x z /\ prism_f x y z = prism_f y z x.
Proof. rewrite !prism_f_form. rewrite (F_swap x y z), (F_rot x y z). auto. Qed.

Lemma kernel_fz_z x y z : nz3 x y z ->
  is_derive (fun t => prism_fz x y t) z (- (prism_fzz x y z - (z * x / (z * z + x * x) + z * y / (z * z + y * y)))).
Proof.
  intro N. apply (D_ext (fun t => Gk t x y)); [intro t; rewrite prism_fz_form; reflexivity|].
  eapply is_derive_eq; [apply dG_x; [apply N|apply nz3_reg, nz_rot2, N]|]. rewrite (fzz_form _ _ _ N). ring.
Qed.
Lemma kernel_fz_x x y z : nz3 x y z ->
  is_derive (fun t => prism_fz t y z) x (- (prism_fzx x y z - x * x / (z * z + x * x))).
Proof.
  intro N. apply (D_ext (fun t => Gk z t y)); [intro t; rewrite prism_fz_form; reflexivity|].
  eapply is_derive_eq; [apply dG_y, nz3_reg, nz_rot2, N|]. rewrite (fzx_form _ _ _ N). unfold Lk, ext1.
  rewrite (rad_rot2 x y z), (rad_swap2 x y z). destruct (Req_EM_T z 0) as [E|E]; [destruct N; lra|]. ring.
Qed.
Lemma kernel_fz_y x y z : nz3 x y z ->
  is_derive (fun t => prism_fz x t z) y (- (prism_fzy x y z - y * y / (z * z + y * y))).
Proof.
  intro N. apply (D_ext (fun t => Gk z x t)); [intro t; rewrite prism_fz_form; reflexivity|].
  eapply is_derive_eq; [apply dG_z, nz3_reg, nz_rot2, N|]. rewrite (fzy_form _ _ _ N). unfold Lk, ext1.
  rewrite (rad_rot2 x y z), (rad_rot x y z). destruct (Req_EM_T z 0) as [E|E]; [destruct N; lra|]. ring.
Qed.

Ltac nzt N := destruct N as (A & B & C); repeat split; first [assumption | match goal with H : Rabs (?t - ?x) < Rabs ?x |- _ => exact (near_nz x t ltac:(assumption) H) end].

Lemma kernel_fzz_z x y z : nz3 x y z -> is_derive (fun t => prism_fzz x y t) z (- prism_fzzz x y z).
Proof.
  intro N. apply (D_ext_loc (fun t => Tk t x y) _ z _ (Rabs z)); [apply Rabs_pos_lt, N| |].
  - intros t Ht. symmetry. apply fzz_form. nzt N.
  - rewrite (fzzz_form _ _ _ N). eapply is_derive_eq; [apply dT1, nz_rot2, N|]. unfold t_xxx. rewrite (rad_rot2 x y z). reflexivity.
Qed.
Lemma kernel_fxx_y x y z : nz3 x y z -> is_derive (fun t => prism_fzz t z x) y (- prism_fxxy x y z).
Proof.
  intro N. apply (D_ext_loc (fun t => Tk x t z) _ y _ (Rabs y)); [apply Rabs_pos_lt, N| |].
  - intros t Ht. symmetry. apply fzz_form. nzt N.
  - rewrite (fxxy_form _ _ _ N). apply (dT2 x y z N).
Qed.
Lemma kernel_fxx_z x y z : nz3 x y z -> is_derive (fun t => prism_fzz y t x) z (- prism_fxxz x y z).
Proof.
  intro N. apply (D_ext_loc (fun t => Tk x y t) _ z _ (Rabs z)); [apply Rabs_pos_lt, N| |].
  - intros t Ht. symmetry. apply fzz_form. nzt N.
  - rewrite (fxxz_form _ _ _ N). eapply is_derive_eq; [apply (dT3 x y z N)|]. unfold t_xxy. rewrite (rad_swap2 x y z). reflexivity.
Qed.
Lemma kernel_fzx_y x y z : nz3 x y z -> is_derive (fun t => prism_fzx x t z) y (- prism_fxyz x y z).
Proof.
  intro N. apply (D_ext_loc (fun t => - Lk x z t) _ y _ (Rabs y)); [apply Rabs_pos_lt, N| |].
  - intros t Ht. symmetry. apply fzx_form. nzt N.
  - rewrite (fxyz_form _ _ _ N). eapply is_derive_eq; [apply (dL3 x z y), nz_swap2, N|]. rewrite (rad_swap2 x y z). reflexivity.
Qed.
Lemma kernel_fzy_x x y z : nz3 x y z -> is_derive (fun t => prism_fzy t y z) x (- prism_fxyz x y z).
Proof.
  intro N. apply (D_ext_loc (fun t => - Lk y z t) _ x _ (Rabs x)); [apply Rabs_pos_lt, N| |].
  - intros t Ht. symmetry. apply fzy_form. nzt N.
  - rewrite (fxyz_form _ _ _ N). eapply is_derive_eq; [apply (dL3 y z x), nz_rot, N|]. rewrite (rad_rot x y z). reflexivity.
Qed.

Lemma kernel_f_xyz : exists fx fxy : R -> R -> R -> R, forall x y z, nz3 x y z ->
  is_derive (fun t => prism_f t y z) x (fx x y z) /\ is_derive (fun t => fx x t z) y (fxy x y z) /\
  is_derive (fun t => fxy x y t) z (- prism_fxyz x y z) /\ prism_fxyz x y z = 1 / sqrt (x ^ 2 + y ^ 2 + z ^ 2).
Proof.
  exists (fun x y z => - Gk x y z - ext2 x y - ext2 x z),
    (fun x y z => - Lk x y z - ext1 x y - x * x * (x * x - y * y) / (x * x + y * y) ^ 2).
  intros x y z N. refine (conj _ (conj _ (conj _ _))).
  - apply (D_ext (fun t => F t y z)); [intro t; rewrite prism_f_form; reflexivity|]. apply dF_x, nz3_reg, N.
  - assert (P : 0 < x * x + y * y) by (destruct N as (A & _); nra).
    assert (E2 : is_derive (fun t => ext2 x t) y (x * x * (x * x - y * y) / (x * x + y * y) ^ 2)).
    { unfold ext2. eapply is_derive_eq; [der; lra|]. field; lra. }
    eapply is_derive_eq.
    + apply (D_minus (fun t => - Gk x t z - ext2 x t) (fun t => ext2 x z)).
      * apply (D_minus (fun t => - Gk x t z) (fun t => ext2 x t)); [|exact E2]. apply (D_opp (fun t => Gk x t z)). apply dG_y, nz3_reg, N.
      * apply D_const.
    + unfold Lk. ring.
  - rewrite (fxyz_form _ _ _ N). eapply is_derive_eq.
    + apply (D_minus (fun t => - Lk x y t - ext1 x y) (fun t => x * x * (x * x - y * y) / (x * x + y * y) ^ 2)); [|apply D_const].
      apply (D_minus (fun t => - Lk x y t) (fun t => ext1 x y)); [|apply D_const]. apply dL3, N.
    + ring.
  - rewrite (fxyz_form _ _ _ N). unfold rad. do 2 f_equal. ring.
Qed.

Lemma kernel_f_z_off : exists x y z, nz3 x y z /\ ~ is_derive (fun t => prism_f x y t) z (- prism_fz x y z).
Proof.
  exists 1, 1, 1. assert (N : nz3 1 1 1) by (repeat split; lra). split; [exact N|]. intro H.
  pose proof (is_derive_unique _ _ _ H) as U. pose proof (is_derive_unique _ _ _ (kernel_f_z 1 1 1 N)) as V. rewrite U in V. lra.
Qed.

(** ** C23 *)
Lemma rad_axis x y z : Rabs (rad x y z - Rabs y) <= Rabs x + Rabs z.
Proof.
  pose proof (Rabs_pos x). pose proof (Rabs_pos y). pose proof (Rabs_pos z).
  assert (E : x * x + y * y + z * z = Rabs x * Rabs x + Rabs y * Rabs y + Rabs z * Rabs z).
  { rewrite <- !Rabs_mult. rewrite !Rabs_pos_eq by nra. reflexivity. }
  unfold rad. rewrite E. set (a := Rabs x) in *. set (b := Rabs y) in *. set (c := Rabs z) in *. clearbody a b c.
  pose proof (sqrt_pos (a * a + b * b + c * c)) as P. pose proof (sqrt_sqrt (a * a + b * b + c * c) ltac:(nra)) as Q.
  set (s := sqrt _) in *. clearbody s. apply Rabs_le. split; nra.
Qed.

Lemma log_axis_cont y e : y < 0 -> 0 < e -> exists d, 0 < d /\ forall x z, Rabs x < d -> Rabs z < d ->
  Rabs (ln (rad x y z - y) - ln (-2 * y)) < e.
Proof.
  intros Hy He.
  assert (C : continuity_pt (fun s => ln (s - y)) (- y)).
  { eapply derive_continuity. eapply is_derive_eq; [der; lra|reflexivity]. }
  destruct (proj1 (continuity_pt_locally _ _) C (mkposreal e He)) as [d Hd].
  exists (d / 2). pose proof (cond_pos d). split; [lra|]. intros x z Hx Hz.
  replace (-2 * y) with (- y - y) by ring. apply (Hd (rad x y z)). change (Rabs (rad x y z - - y) < d).
  pose proof (rad_axis x y z) as B. rewrite (Rabs_left y Hy) in B. lra.
Qed.

Lemma fzx_log x y z : x <> 0 \/ z <> 0 -> prism_fzx x y z = ln (rad x y z - y) - ln (x * x + z * z).
Proof.
  intro H. pose proof (log_pair x z y H) as L. rewrite (rad_swap2 x y z) in L. unfold prism_fzx.
  pose proof (rad_sqr x y z) as Q. assert (R0 : 0 <= rad x y z) by apply sqrt_pos.
  assert (P : 0 < x * x + z * z) by (destruct H; nra).
  assert (0 < y + rad x y z) by nra.
  rewrite (proj2 (Reqb_false _ _)) by lra. replace (rad x y z - y) with (- y + rad x y z) by ring. lra.
Qed.

Lemma fzx_edge y : y < 0 -> prism_fzx 0 y 0 = ln (-2 * y).
Proof.
  intro H. unfold prism_fzx.
  assert (E : y + rad 0 y 0 = 0).
  { unfold rad. replace (0 * 0 + y * y + 0 * 0) with (Rsqr y) by (unfold Rsqr; ring). rewrite sqrt_Rsqr_abs, Rabs_left by exact H. ring. }
  rewrite E. rewrite (proj2 (Reqb_true _ _) eq_refl), (proj2 (Rltb_true _ _) H). reflexivity.
Qed.

Lemma fzx_edge_limit y1 y2 e : y1 < 0 -> y2 < 0 -> 0 < e -> exists d, 0 < d /\ forall x z, Rabs x < d -> Rabs z < d -> x <> 0 \/ z <> 0 ->
  Rabs ((prism_fzx x y2 z - prism_fzx x y1 z) - (prism_fzx 0 y2 0 - prism_fzx 0 y1 0)) < e.
Proof.
  intros H1 H2 He. destruct (log_axis_cont y1 (e / 2) H1 ltac:(lra)) as [d1 [D1 K1]].
  destruct (log_axis_cont y2 (e / 2) H2 ltac:(lra)) as [d2 [D2 K2]].
  exists (Rmin d1 d2). split; [apply Rmin_pos; assumption|]. intros x z Hx Hz N.
  pose proof (Rmin_l d1 d2). pose proof (Rmin_r d1 d2).
  specialize (K1 x z ltac:(lra) ltac:(lra)). specialize (K2 x z ltac:(lra) ltac:(lra)).
  rewrite !fzx_log by exact N. rewrite !fzx_edge by assumption.
  apply Rabs_def2 in K1. apply Rabs_def2 in K2. apply Rabs_def1; lra.
Qed.

Lemma fzy_fzx x y z : prism_fzy x y z = prism_fzx y x z.
Proof. unfold prism_fzy, prism_fzx. rewrite (rad_swap x y z). reflexivity. Qed.

Lemma fzy_edge_limit x1 x2 e : x1 < 0 -> x2 < 0 -> 0 < e -> exists d, 0 < d /\ forall y z, Rabs y < d -> Rabs z < d -> y <> 0 \/ z <> 0 ->
  Rabs ((prism_fzy x2 y z - prism_fzy x1 y z) - (prism_fzy x2 0 0 - prism_fzy x1 0 0)) < e.
Proof.
  intros H1 H2 He. destruct (fzx_edge_limit x1 x2 e H1 H2 He) as [d [D K]]. exists d. split; [exact D|].
  intros y z Hy Hz N. rewrite !fzy_fzx. apply K; assumption.
Qed.

(** ** magnetic prism *)
Definition K4 : R := - 1 / (4 * PI).

Lemma mag_field_form b m p : off_faces b p -> magnetic_field b m p = vscal K4 (mvec (tens b p) m).
Proof.
  intro H. destruct (tensor_forms b p H) as (A1 & A2 & A3 & A4 & A5 & A6).
  unfold magnetic_field. cbv zeta. rewrite A1, A2, A3, A4, A5, A6. reflexivity.
Qed.

Lemma off_faces_near b p : off_faces b p -> near p (off_faces b).
Proof.
  intro H. offs H. 
  set (d := Rmin (Rmin (Rabs (vx p - vx (b_min b))) (Rabs (vx p - vx (b_max b))))
            (Rmin (Rmin (Rabs (vy p - vy (b_min b))) (Rabs (vy p - vy (b_max b))))
                  (Rmin (Rabs (vz p - vz (b_min b))) (Rabs (vz p - vz (b_max b)))))).
  exists d. assert (P : forall a c, a <> c -> 0 < Rabs (a - c)) by (intros; apply Rabs_pos_lt; lra).
  split; [unfold d; repeat apply Rmin_pos; apply P; assumption|].
  intros q Hq.
  assert (L : d <= Rabs (vx p - vx (b_min b)) /\ d <= Rabs (vx p - vx (b_max b)) /\ d <= Rabs (vy p - vy (b_min b)) /\
     d <= Rabs (vy p - vy (b_max b)) /\ d <= Rabs (vz p - vz (b_min b)) /\ d <= Rabs (vz p - vz (b_max b))).
  { unfold d. repeat split;
    try (eapply Rle_trans; [apply Rmin_l|]; first [apply Rmin_l | apply Rmin_r]);
    try (eapply Rle_trans; [apply Rmin_r|]; eapply Rle_trans; [apply Rmin_l|]; first [apply Rmin_l | apply Rmin_r]);
    try (eapply Rle_trans; [apply Rmin_r|]; eapply Rle_trans; [apply Rmin_r|]; first [apply Rmin_l | apply Rmin_r]). }
  destruct (coord_le_norm (vsub q p)) as (Cx & Cy & Cz). cbn [vsub vx vy vz] in Cx, Cy, Cz.
  destruct L as (L1 & L2 & L3 & L4 & L5 & L6).
  assert (T : forall a c t, Rabs (t - a) < Rabs (a - c) -> t <> c).
  { intros a c t Ht E. subst. rewrite <- Rabs_Ropp in Ht. replace (- (c - a)) with (a - c) in Ht by ring. lra. }
  repeat split; eapply T; eapply Rle_lt_trans; try eassumption; eapply Rlt_le_trans; eassumption.
Qed.

Lemma is_grad_eq f p g h : g = h -> is_grad f p g -> is_grad f p h.
Proof. intros <-; auto. Qed.

Lemma mag_H_is_grad b m p : off_faces b p -> is_grad (scalar_potential b m) p (magnetic_field b m p).
Proof.
  intro H. rewrite mag_field_form by exact H. destruct (field_jac b p H) as (JX & JY & JZ). cbn [m0 m1 m2] in *.
  apply (is_grad_ext (fun q => K4 * (vx m * vx (fieldsum b q) + vy m * vy (fieldsum b q) + vz m * vz (fieldsum b q)))).
  { intro q. unfold scalar_potential. cbv zeta. rewrite <- field_form. cbn [vx vy vz]. unfold K4. ring. }
  eapply is_grad_eq.
  2:{ apply (is_grad_scal K4). apply (is_grad_plus (fun q => vx m * vx (fieldsum b q) + vy m * vy (fieldsum b q))).
      - apply (is_grad_plus (fun q => vx m * vx (fieldsum b q))).
        + apply (is_grad_scal (vx m) (fun q => vx (fieldsum b q))), JX.
        + apply (is_grad_scal (vy m) (fun q => vy (fieldsum b q))), JY.
      - apply (is_grad_scal (vz m) (fun q => vz (fieldsum b q))), JZ. }
  unfold tens, mvec, vdot, vadd, vscal; cbn [vx vy vz m0 m1 m2]. f_equal; ring.
Qed.

Lemma mag_grad_jac b m p : off_faces b p -> is_jac (magnetic_field b m) p (magnetic_field_gradient b m p).
Proof.
  intro H. apply (is_jac_ext_near (fun q => vscal K4 (mvec (tens b q) m))).
  { eapply near_impl; [|apply off_faces_near, H]. intros q Hq. symmetry. apply mag_field_form, Hq. }
  destruct (third_forms b p H) as (A1 & A2 & A3 & A4 & A5 & A6 & A7 & A8 & A9 & A10).
  unfold magnetic_field_gradient. cbv zeta. rewrite A1, A2, A3, A4, A5, A6, A7, A8, A9, A10.
  destruct (tensor_jac b p H) as (Gxx & Gxy & Gxz & Gyy & Gyz & Gzz). fold K4.
  assert (L : forall (f1 f2 f3 : vec3 -> R) d1 d2 d3, is_grad f1 p d1 -> is_grad f2 p d2 -> is_grad f3 p d3 ->
     is_grad (fun q => K4 * (f1 q * vx m + f2 q * vy m + f3 q * vz m)) p
       (vscal K4 (vadd (vadd (vscal (vx m) d1) (vscal (vy m) d2)) (vscal (vz m) d3)))).
  { intros f1 f2 f3 d1 d2 d3 D1 D2 D3.
    apply (is_grad_ext (fun q => K4 * (vx m * f1 q + vy m * f2 q + vz m * f3 q))); [intro q; ring|].
    apply (is_grad_scal K4). apply (is_grad_plus (fun q => vx m * f1 q + vy m * f2 q)).
    - apply (is_grad_plus (fun q => vx m * f1 q)); apply is_grad_scal; assumption.
    - apply is_grad_scal; assumption. }
  refine (conj _ (conj _ _)); cbn [m0 m1 m2].
  - eapply is_grad_eq; [|exact (L _ _ _ _ _ _ Gxx Gxy Gxz)]. unfold vadd, vscal; cbn [vx vy vz]. f_equal; ring.
  - eapply is_grad_eq; [|exact (L _ _ _ _ _ _ Gxy Gyy Gyz)]. unfold vadd, vscal; cbn [vx vy vz]. f_equal; ring.
  - eapply is_grad_eq; [|exact (L _ _ _ _ _ _ Gxz Gyz Gzz)]. unfold vadd, vscal; cbn [vx vy vz]. f_equal; ring.
Qed.

Lemma mag_grad_sym b m p : msym (magnetic_field_gradient b m p).
Proof. unfold magnetic_field_gradient, msym, mtrans; cbv zeta; cbn [m0 m1 m2 vx vy vz vscal]. reflexivity. Qed.

Lemma mag_curl b m p : off_faces b p -> is_curl (magnetic_field b m) p vzero.
Proof.
  intro H. exists (magnetic_field_gradient b m p). split; [apply mag_grad_jac, H|].
  unfold curl_of, magnetic_field_gradient, vzero, vscal. cbv zeta. cbn [m0 m1 m2 vx vy vz]. f_equal; ring.
Qed.

(** trace of the gradient: identity between the kernels at every corner *)
Lemma kernel_trace x y z : prism_fzzz y z x + prism_fxxz y z x + prism_fxxy z x y = 0.
Proof.
  unfold prism_fzzz, prism_fxxz, prism_fxxy. rewrite (rad_rot x y z), (rad_rot2 x y z).
  pose proof (rad_sqr x y z) as Q. assert (R0 : 0 <= rad x y z) by apply sqrt_pos.
  destruct (Req_dec y 0) as [Y|Y].
  - rewrite (proj2 (nonzero_false y) Y), Y.
    assert (E : forall v : R, (if nonzero (rad x 0 z) then v * (0 * z / rad x 0 z) else v) = v \/ (if nonzero (rad x 0 z) then v * (0 * z / rad x 0 z) else v) = 0).
    { intro v. destruct (nonzero (rad x 0 z)); [right; unfold Rdiv; ring|left; reflexivity]. }
    destruct (nonzero (rad x 0 z)) eqn:N.
    + destruct (nonzero z); unfold Rdiv; ring.
    + apply nonzero_false in N. rewrite Y in Q. rewrite N in Q. assert (x = 0) by nra. assert (z = 0) by nra. subst.
      rewrite !(proj2 (nonzero_false _)) by ring. ring.
  - rewrite (proj2 (nonzero_true y) Y). assert (Hr : 0 < rad x y z) by nra.
    rewrite (proj2 (nonzero_true (rad x y z))) by lra. rewrite (proj2 (nonzero_true (y * y + x * x))) by nra.
    destruct (Req_dec z 0) as [Z|Z].
    + rewrite (proj2 (nonzero_false z) Z). rewrite Z in *. unfold Rdiv. ring.
    + rewrite (proj2 (nonzero_true z) Z). rewrite (proj2 (nonzero_true (z * z + x * x))) by nra.
      field. repeat split; try lra; nra.
Qed.

Lemma fzzz_sym x y z : prism_fzzz x y z = prism_fzzz y x z.
Proof.
  unfold prism_fzzz. rewrite (rad_swap x y z). rewrite (Rmult_comm y x).
  destruct (nonzero (x * x + z * z)), (nonzero (y * y + z * z)), (nonzero (rad x y z)); ring.
Qed.
Lemma fxx_swap x y z : prism_fxxy x z y = prism_fxxz x y z.
Proof. unfold prism_fxxy, prism_fxxz. rewrite (rad_swap2 x y z). reflexivity. Qed.

Lemma mag_trace b m p : mtrace (magnetic_field_gradient b m p) = 0.
Proof.
  unfold magnetic_field_gradient, mtrace, vscal. cbv zeta. cbn [m0 m1 m2 vx vy vz].
  rewrite !eval0, !eval1, !eval2.
  set (S f := csum f (ax b p) (zx b p) (ay b p) (zy b p) (az b p) (zz b p)).
  assert (A : forall f g h, (forall x y z, f x y z + g x y z + h x y z = 0) -> S f + S g + S h = 0).
  { intros f g h E. unfold S. transitivity (csum (fun x y z => f x y z + g x y z + h x y z) (ax b p) (zx b p) (ay b p) (zy b p) (az b p) (zz b p)).
    - unfold csum. ring.
    - rewrite (csum_ext _ (fun _ _ _ => 0)) by (intros; apply E). unfold csum. ring. }
  assert (X : S (fun x y z => prism_fzzz y z x) + S (fun x y z => prism_fxxz y z x) + S (fun x y z => prism_fxxy z x y) = 0).
  { apply A. intros. apply kernel_trace. }
  assert (Y : S prism_fxxy + S (fun x y z => prism_fzzz z x y) + S (fun x y z => prism_fxxz z x y) = 0).
  { apply A. intros x y z. pose proof (kernel_trace y x z) as K. rewrite (fzzz_sym x z y) in K. rewrite (fxx_swap z x y) in K.
    rewrite <- (fxx_swap x z y) in K. lra. }
  assert (Z : S prism_fxxz + S (fun x y z => prism_fxxy y z x) + S prism_fzzz = 0).
  { apply A. intros x y z. pose proof (kernel_trace z x y) as K. lra. }
  match goal with |- ?e = 0 => transitivity (- 1 / (4 * PI) * ((S (fun x y z => prism_fzzz y z x) + S (fun x y z => prism_fxxz y z x) + S (fun x y z => prism_fxxy z x y)) * vx m
    + (S prism_fxxy + S (fun x y z => prism_fzzz z x y) + S (fun x y z => prism_fxxz z x y)) * vy m + (S prism_fxxz + S (fun x y z => prism_fxxy y z x) + S prism_fzzz) * vz m)) end.
  - unfold S. ring.
  - rewrite X, Y, Z. ring.
Qed.

Lemma flux_pointwise mu0 b m pts :
  magnetic_flux_density mu0 b m pts
  = Ok (map (fun p => vscal mu0 (if is_inside b p then vadd (magnetic_field b m p) m else magnetic_field b m p)) pts).
Proof.
  unfold magnetic_flux_density. cbv zeta.
  assert (E : map (fun h : vec3 => vadd h m) (mask_select (map (is_inside b) pts) (map (magnetic_field b m) pts))
    = map (fun p => vadd (magnetic_field b m p) m) (mask_select (map (is_inside b) pts) pts)).
  { induction pts as [|p pts IH]; [reflexivity|]. cbn. destruct (is_inside b p); cbn; rewrite IH; reflexivity. }
  rewrite E, mask_assign_pointwise. cbn. rewrite map_map. reflexivity.
Qed.

Lemma is_inside_spec b p : is_inside b p = true <->
  vx (b_min b) <= vx p <= vx (b_max b) /\ vy (b_min b) <= vy p <= vy (b_max b) /\ vz (b_min b) <= vz p <= vz (b_max b).
Proof. unfold is_inside. rewrite !andb_true_iff, !Rleb_true. tauto. Qed.

(** the magnetization seen at a point is locally constant off the faces *)
Lemma is_inside_near b p : off_faces b p -> near p (fun q => is_inside b q = is_inside b p).
Proof.
  intro H. assert (H' := H). offs H'.
  set (d := Rmin (Rmin (Rabs (vx p - vx (b_min b))) (Rabs (vx p - vx (b_max b))))
            (Rmin (Rmin (Rabs (vy p - vy (b_min b))) (Rabs (vy p - vy (b_max b))))
                  (Rmin (Rabs (vz p - vz (b_min b))) (Rabs (vz p - vz (b_max b)))))).
  exists d. assert (P : forall a c, a <> c -> 0 < Rabs (a - c)) by (intros; apply Rabs_pos_lt; lra).
  split; [unfold d; repeat apply Rmin_pos; apply P; assumption|].
  intros q Hq.
  assert (L : d <= Rabs (vx p - vx (b_min b)) /\ d <= Rabs (vx p - vx (b_max b)) /\ d <= Rabs (vy p - vy (b_min b)) /\
     d <= Rabs (vy p - vy (b_max b)) /\ d <= Rabs (vz p - vz (b_min b)) /\ d <= Rabs (vz p - vz (b_max b))).
  { unfold d. repeat split;
    try (eapply Rle_trans; [apply Rmin_l|]; first [apply Rmin_l | apply Rmin_r]);
    try (eapply Rle_trans; [apply Rmin_r|]; eapply Rle_trans; [apply Rmin_l|]; first [apply Rmin_l | apply Rmin_r]);
    try (eapply Rle_trans; [apply Rmin_r|]; eapply Rle_trans; [apply Rmin_r|]; first [apply Rmin_l | apply Rmin_r]). }
  destruct (coord_le_norm (vsub q p)) as (Cx & Cy & Cz). cbn [vsub vx vy vz] in Cx, Cy, Cz.
  destruct L as (L1 & L2 & L3 & L4 & L5 & L6).
  assert (T : forall a c t, Rabs (t - a) < Rabs (a - c) -> Rleb c t = Rleb c a /\ Rleb t c = Rleb a c).
  { intros a c t Ht. unfold Rabs in Ht. unfold Rleb.
    destruct (Rcase_abs (t - a)), (Rcase_abs (a - c)), (Rle_dec c t), (Rle_dec c a), (Rle_dec t c), (Rle_dec a c); split; try reflexivity; exfalso; lra. }
  unfold is_inside.
  rewrite (proj1 (T (vx p) (vx (b_min b)) (vx q) ltac:(lra))), (proj1 (T (vy p) (vy (b_min b)) (vy q) ltac:(lra))), (proj1 (T (vz p) (vz (b_min b)) (vz q) ltac:(lra))).
  rewrite (proj2 (T (vx p) (vx (b_max b)) (vx q) ltac:(lra))), (proj2 (T (vy p) (vy (b_max b)) (vy q) ltac:(lra))), (proj2 (T (vz p) (vz (b_max b)) (vz q) ltac:(lra))).
  reflexivity.
Qed.

Definition flux_at mu0 b m p : vec3 :=
  match magnetic_flux_density mu0 b m [p] with Ok [v] => v | _ => vzero end.

Lemma flux_at_eq mu0 b m p : flux_at mu0 b m p = vscal mu0 (if is_inside b p then vadd (magnetic_field b m p) m else magnetic_field b m p).
Proof. unfold flux_at. rewrite flux_pointwise. reflexivity. Qed.

Lemma is_jac_addc F p J c : is_jac F p J -> is_jac (fun q => vadd (F q) c) p J.
Proof.
  intros (A & B & C).
  assert (L : forall f g k, is_grad f p g -> is_grad (fun q => f q + k) p g).
  { clear. intros f g k H. eapply is_grad_eq; [|apply (is_grad_plus f (fun _ => k) p g vzero H)].
    - destruct g; unfold vadd, vzero; cbn; f_equal; ring.
    - split_grad; apply D_const. }
  refine (conj _ (conj _ _)); apply L; assumption.
Qed.

Lemma flux_jac mu0 b m p : off_faces b p -> is_jac (flux_at mu0 b m) p (mscal mu0 (magnetic_field_gradient b m p)).
Proof.
  intro H.
  apply (is_jac_ext_near (fun q => vscal mu0 (vadd (magnetic_field b m q) (if is_inside b p then m else vzero)))).
  { eapply near_impl; [|apply is_inside_near, H]. intros q Hq. cbn beta in Hq. rewrite flux_at_eq, Hq.
    destruct (is_inside b p); [reflexivity|]. unfold vadd, vzero, vscal; cbn; f_equal; ring. }
  apply (is_jac_scal mu0), is_jac_addc, mag_grad_jac, H.
Qed.

Lemma flux_div mu0 b m p : off_faces b p -> is_div (flux_at mu0 b m) p 0.
Proof.
  intro H. exists (mscal mu0 (magnetic_field_gradient b m p)). split; [apply flux_jac, H|].
  pose proof (mag_trace b m p) as T. unfold mtrace, mscal, vscal in *; cbn [m0 m1 m2 vx vy vz] in *.
  match goal with |- 0 = ?e => replace e with (mu0 * (vx (m0 (magnetic_field_gradient b m p)) + vy (m1 (magnetic_field_gradient b m p)) + vz (m2 (magnetic_field_gradient b m p)))) by ring end.
  rewrite T. ring.
Qed.

Lemma fzx_regular x y1 y2 z : x <> 0 \/ z <> 0 ->
  prism_fzx x y2 z - prism_fzx x y1 z = - ln (y2 + sqrt (x * x + y2 * y2 + z * z)) + ln (y1 + sqrt (x * x + y1 * y1 + z * z)).
Proof.
  intro H.
  assert (L : forall y, prism_fzx x y z = - ln (y + rad x y z)).
  { intro y. unfold prism_fzx. pose proof (rad_sqr x y z) as Q. assert (R0 : 0 <= rad x y z) by apply sqrt_pos.
    assert (P : 0 < x * x + z * z) by (destruct H; nra). assert (0 < y + rad x y z) by nra.
    rewrite (proj2 (Reqb_false _ _)) by lra. reflexivity. }
  rewrite !L. unfold rad. ring.
Qed.

Lemma flux_definition (mu0 : R) (b : box) (m : vec3) (pts : list vec3) :
  exists B : vec3 -> vec3, magnetic_flux_density mu0 b m pts = Ok (map B pts) /\
  forall p,
    ((vx (b_min b) <= vx p <= vx (b_max b) /\ vy (b_min b) <= vy p <= vy (b_max b) /\ vz (b_min b) <= vz p <= vz (b_max b)) ->
      B p = vscal mu0 (vadd (magnetic_field b m p) m)) /\
    (outside b p -> B p = vscal mu0 (magnetic_field b m p)).
Proof.
  exists (fun p => vscal mu0 (if is_inside b p then vadd (magnetic_field b m p) m else magnetic_field b m p)).
  split; [apply flux_pointwise|]. intro p. split; intro H.
  - rewrite (proj2 (is_inside_spec b p) H). reflexivity.
  - destruct (is_inside b p) eqn:E; [|reflexivity]. apply is_inside_spec in E. exfalso. unfold outside in H. lra.
Qed.

Lemma flux_div_spec (mu0 : R) (b : box) (m p : vec3) : off_faces b p ->
  magnetic_flux_density mu0 b m [p] = Ok [flux_at mu0 b m p] /\ is_div (flux_at mu0 b m) p 0.
Proof.
  intro H. split; [|apply flux_div, H]. rewrite flux_at_eq, flux_pointwise. reflexivity.
Qed.
