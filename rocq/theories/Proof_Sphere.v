(** ElectrostaticSphere / MagnetostaticSphere (C52-C54). *)
From Coq Require Import Reals Lra List Bool String.
From Coquelicot Require Import Coquelicot.
From Verif Require Import Vec3 Numpy Calculus Deriv Integral CurveDeriv Model_Spatial Model_Prism Model_Static Spec_Static Proof_Static Proof_Static2 Proof_Gravity.
Import ListNotations.
Open Scope R_scope.

Definition valid_sphere (s : sph) : Prop := 0 < sp_radius s /\ 0 < sp_c1 s /\ 0 < sp_c0 s.

Definition sp_V (s : sph) (p : vec3) : R :=
  let v := vsub p (sp_loc s) in
  if Rltb (sp_radius s) (vnorm v) then vdot v (vopp (sp_F0 s)) * (1 - sp_cur s * sp_radius s ^ 3 / vnorm v ^ 3)
  else vdot v (vopp (sp_F0 s)) * 3 * sp_c0 s / (sp_c1 s + 2 * sp_c0 s).
Definition sp_Eout (s : sph) (v : vec3) : vec3 :=
  vadd (vscal (1 - sp_cur s * sp_radius s ^ 3 / vnorm v ^ 3) (sp_F0 s))
       (vdiv (vscal (3 * vdot v (sp_F0 s) * sp_cur s * sp_radius s) v) (vnorm v ^ 4)).
Definition sp_E (s : sph) (p : vec3) : vec3 :=
  let v := vsub p (sp_loc s) in
  if Rltb (sp_radius s) (vnorm v) then sp_Eout s v else vscal (3 * sp_c0 s / (sp_c1 s + 2 * sp_c0 s)) (sp_F0 s).

Lemma sp_total_potential_pt s xyz : sp_total_potential s xyz = Ok (map (sp_V s) xyz).
Proof.
  unfold sp_total_potential. cbv zeta. rewrite !map_map. rewrite !mask_select_map.
  rewrite !map_map.
  rewrite (mask_assign_pointwise (fun p => Rltb (sp_radius s) (vnorm (vsub p (sp_loc s))))
     (fun p => vdot (vsub p (sp_loc s)) (vopp (sp_F0 s)) * (1 - sp_cur s * sp_radius s ^ 3 / vnorm (vsub p (sp_loc s)) ^ 3)) (fun _ => 0)).
  cbn [rbind].
  rewrite (mask_assign_pointwise (fun p => negb (Rltb (sp_radius s) (vnorm (vsub p (sp_loc s)))))
     (fun p => vdot (vsub p (sp_loc s)) (vopp (sp_F0 s)) * 3 * sp_c0 s / (sp_c1 s + 2 * sp_c0 s))).
  f_equal. apply map_ext. intro p. unfold sp_V. cbv zeta. destruct (Rltb _ _); reflexivity.
Qed.

Lemma sp_total_field_pt s xyz : sp_total_field s xyz = Ok (map (sp_E s) xyz).
Proof.
  unfold sp_total_field. cbv zeta. rewrite !map_map. rewrite !mask_select_map.
  rewrite !map_map.
  rewrite (mask_assign_pointwise (fun p => Rltb (sp_radius s) (vnorm (vsub p (sp_loc s))))
     (fun p => sp_Eout s (vsub p (sp_loc s))) (fun _ => vzero)).
  cbn [rbind]. rewrite (mask_fill_pointwise (fun p => negb (Rltb (sp_radius s) (vnorm (vsub p (sp_loc s)))))).
  f_equal. apply map_ext. intro p. unfold sp_E. cbv zeta. destruct (Rltb _ _); reflexivity.
Qed.

Lemma map_combine_map {A B C D} (f : B * C -> D) (g : A -> B) (h : A -> C) xs :
  map f (combine (map g xs) (map h xs)) = map (fun x => f (g x, h x)) xs.
Proof. induction xs as [|x xs IH]; [reflexivity|]. cbn. rewrite IH. reflexivity. Qed.

(** what the three modes return *)
Definition modes {P A} (sub : A -> A -> A) (f : list P -> string -> result (fields A)) (total primary : P -> A) : Prop :=
  forall xyz,
    f xyz "total"%string = Ok (One (map total xyz)) /\
    f xyz "primary"%string = Ok (One (map primary xyz)) /\
    f xyz "secondary"%string = Ok (One (map (fun p => sub (total p) (primary p)) xyz)) /\
    (forall field, field <> "total"%string -> field <> "primary"%string -> field <> "secondary"%string ->
       f xyz field = Ok (Three (map total xyz) (map primary xyz) (map (fun p => sub (total p) (primary p)) xyz))).

Lemma dispatch_modes {P A} (sub : A -> A -> A) (f : list P -> string -> result (fields A)) total primary :
  (forall xyz field, f xyz field = Ok (dispatch sub field (map total xyz) (map primary xyz))) -> modes sub f total primary.
Proof.
  intros H xyz. rewrite !H. unfold dispatch. rewrite !map_combine_map. cbn. refine (conj eq_refl (conj eq_refl (conj eq_refl _))).
  intros field N1 N2 N3. rewrite H. unfold dispatch. rewrite !map_combine_map.
  apply String.eqb_neq in N1, N2, N3. rewrite N1, N2, N3. reflexivity.
Qed.

Definition sp_prim (s : sph) (p : vec3) : R := vdot (vsub p (sp_loc s)) (vopp (sp_F0 s)).
Definition sp_coef (s : sph) (p : vec3) : R := if Rleb (vnorm (vsub p (sp_loc s))) (sp_radius s) then sp_c1 s else sp_c0 s.

Lemma sphere_potential_modes s : modes Rminus (sphere_potential s) (sp_V s) (sp_prim s).
Proof. apply dispatch_modes. intros xyz field. unfold sphere_potential. rewrite sp_total_potential_pt. reflexivity. Qed.
Lemma sphere_field_modes s : modes vsub (sphere_field s) (sp_E s) (fun _ => sp_F0 s).
Proof.
  apply dispatch_modes. intros xyz field. unfold sphere_field. rewrite sp_total_field_pt. cbn [rbind]. unfold sp_primary_field.
  replace (vadd vzero (sp_F0 s)) with (sp_F0 s) by (destruct (sp_F0 s); vring). reflexivity.
Qed.
Lemma sphere_flux_modes s : modes vsub (sphere_flux s) (fun p => vscal (sp_coef s p) (sp_E s p)) (fun _ => vscal (sp_c0 s) (sp_F0 s)).
Proof.
  apply dispatch_modes. intros xyz field. unfold sphere_flux. cbv zeta. rewrite sp_total_field_pt, !map_map.
  rewrite (mask_fill_pointwise (fun p => Rleb (vnorm (vsub p (sp_loc s))) (sp_radius s)) (sp_c1 s) (fun _ => sp_c0 s)). cbn [rbind].
  unfold sp_primary_field. rewrite map_map, map_combine_map. replace (vadd vzero (sp_F0 s)) with (sp_F0 s) by (destruct (sp_F0 s); vring). reflexivity.
Qed.

(** the values *)
Lemma sp_V_out s p : sp_radius s < vnorm (vsub p (sp_loc s)) ->
  sp_V s p = vdot (vsub p (sp_loc s)) (vopp (sp_F0 s)) * (1 - sp_cur s * sp_radius s ^ 3 / vnorm (vsub p (sp_loc s)) ^ 3).
Proof. intro H. unfold sp_V. cbv zeta. rewrite (proj2 (Rltb_true _ _) H). reflexivity. Qed.
Lemma sp_V_in s p : vnorm (vsub p (sp_loc s)) <= sp_radius s ->
  sp_V s p = vdot (vsub p (sp_loc s)) (vopp (sp_F0 s)) * 3 * sp_c0 s / (sp_c1 s + 2 * sp_c0 s).
Proof. intro H. unfold sp_V. cbv zeta. rewrite (proj2 (Rltb_false _ _)) by lra. reflexivity. Qed.
Lemma sp_E_out s p : sp_radius s < vnorm (vsub p (sp_loc s)) -> sp_E s p = sp_Eout s (vsub p (sp_loc s)).
Proof. intro H. unfold sp_E. cbv zeta. rewrite (proj2 (Rltb_true _ _) H). reflexivity. Qed.
Lemma sp_E_in s p : vnorm (vsub p (sp_loc s)) <= sp_radius s -> sp_E s p = vscal (3 * sp_c0 s / (sp_c1 s + 2 * sp_c0 s)) (sp_F0 s).
Proof. intro H. unfold sp_E. cbv zeta. rewrite (proj2 (Rltb_false _ _)) by lra. reflexivity. Qed.

Lemma sp_cur_in s : valid_sphere s -> 3 * sp_c0 s / (sp_c1 s + 2 * sp_c0 s) = 1 - sp_cur s.
Proof. intros [H1 [H2 H3]]. unfold sp_cur. field. lra. Qed.

(** minus the gradient of the potential outside *)
Definition sp_true (s : sph) (v : vec3) : vec3 :=
  vadd (vscal (1 - sp_cur s * sp_radius s ^ 3 / vnorm v ^ 3) (sp_F0 s))
       (vscal (3 * vdot v (sp_F0 s) * sp_cur s * sp_radius s ^ 3 / vnorm v ^ 5) v).

Lemma sp_grad_out s p : valid_sphere s -> sp_radius s < vnorm (vsub p (sp_loc s)) ->
  is_grad (sp_V s) p (vopp (sp_true s (vsub p (sp_loc s)))).
Proof.
  intros [Hr _] H.
  apply (is_grad_ext_near (fun q => vdot (vsub q (sp_loc s)) (vopp (sp_F0 s)) * (1 - sp_cur s * sp_radius s ^ 3 / vnorm (vsub q (sp_loc s)) ^ 3))).
  { eapply near_impl; [|apply (near_norm_gt _ _ _ H)]. intros q Hq; cbv beta in Hq. symmetry. apply sp_V_out. exact Hq. }
  apply (is_grad_shift (fun v => vdot v (vopp (sp_F0 s)) * (1 - sp_cur s * sp_radius s ^ 3 / vnorm v ^ 3))).
  assert (N : vsub p (sp_loc s) <> vzero) by (intro Z; rewrite Z, vnorm_zero in H; lra).
  unfold sp_true. set (c := sp_cur s * sp_radius s ^ 3). 
  replace (3 * vdot (vsub p (sp_loc s)) (sp_F0 s) * sp_cur s * sp_radius s ^ 3) with (3 * vdot (vsub p (sp_loc s)) (sp_F0 s) * c) by (unfold c; ring).
  generalize c. clear c. intro c.
  destruct (vsub p (sp_loc s)) as [x y z], (sp_F0 s) as [e f g].
  pose proof (norm_dx x y z N). pose proof (norm_dy x y z N). pose proof (norm_dz x y z N). pose proof (vnorm_pos _ N).
  unfold vdot, vscal, vadd, vopp in *; cbn [vx vy vz] in *.
  split_grad; (eapply is_derive_eq; [der; apply nz_pow; lra|]); cbn [INR Init.Nat.pred]; field; lra.
Qed.

Lemma sp_grad_in s p : valid_sphere s -> vnorm (vsub p (sp_loc s)) < sp_radius s -> is_grad (sp_V s) p (vopp (sp_E s p)).
Proof.
  intros [Hr [H1 H0]] H. rewrite (sp_E_in s p) by lra.
  apply (is_grad_ext_near (fun q => vdot (vsub q (sp_loc s)) (vopp (sp_F0 s)) * 3 * sp_c0 s / (sp_c1 s + 2 * sp_c0 s))).
  { eapply near_impl; [|apply (near_norm_lt _ _ _ H)]. intros q Hq; cbv beta in Hq. symmetry. apply sp_V_in. lra. }
  apply (is_grad_shift (fun v => vdot v (vopp (sp_F0 s)) * 3 * sp_c0 s / (sp_c1 s + 2 * sp_c0 s))).
  destruct (vsub p (sp_loc s)) as [x y z], (sp_F0 s) as [e f g].
  unfold vdot, vscal, vadd, vopp in *; cbn [vx vy vz] in *.
  split_grad; (eapply is_derive_eq; [der; lra|]); field; lra.
Qed.

Lemma sp_field_gap s v : v <> vzero ->
  vsub (sp_Eout s v) (sp_true s v) = vscal (3 * vdot v (sp_F0 s) * sp_cur s * sp_radius s * (vnorm v - sp_radius s ^ 2) / vnorm v ^ 5) v.
Proof.
  intro N. pose proof (vnorm_pos v N) as P. unfold sp_Eout, sp_true. rewrite vdiv_scal.
  set (k := 1 - sp_cur s * sp_radius s ^ 3 / vnorm v ^ 3). set (d := vdot v (sp_F0 s)). set (n := vnorm v) in *. clearbody d n.
  destruct v, (sp_F0 s); unfold vsub, vadd, vscal; cbn. f_equal; field; lra.
Qed.


Lemma vscal_zero_iff k v : v <> vzero -> (vscal k v = vzero <-> k = 0).
Proof.
  intro N. split; intro H; [|subst; destruct v; vring].
  destruct (Req_dec k 0) as [Z|Z]; [exact Z|]. exfalso. apply N. pose proof (vnorm_scal k v) as E. rewrite H, vnorm_zero in E.
  apply vnorm_eq0. pose proof (Rabs_pos_lt k Z). pose proof (vnorm_nonneg v). nra.
Qed.
Lemma vsub_eq0 a b : vsub a b = vzero -> a = b.
Proof. destruct a, b. unfold vsub, vzero; cbn. intro H. injection H. intros. f_equal; lra. Qed.

Lemma sp_E_grad_iff s p : valid_sphere s -> sp_radius s < vnorm (vsub p (sp_loc s)) ->
  (is_grad (sp_V s) p (vopp (sp_E s p)) <->
   (sp_c1 s = sp_c0 s \/ vdot (vsub p (sp_loc s)) (sp_F0 s) = 0 \/ vnorm (vsub p (sp_loc s)) = sp_radius s ^ 2)).
Proof.
  intros V H. pose proof V as [Hr [H1 H0]]. set (v := vsub p (sp_loc s)) in *.
  assert (N : v <> vzero) by (intro Z; rewrite Z, vnorm_zero in H; lra). pose proof (vnorm_pos v N) as P.
  pose proof (sp_grad_out s p V H) as G. fold v in G. pose proof (sp_field_gap s v N) as D. rewrite (sp_E_out s p H). fold v.
  assert (E : is_grad (sp_V s) p (vopp (sp_Eout s v)) <-> sp_Eout s v = sp_true s v).
  { split; intro Q; [|rewrite Q; exact G]. pose proof (is_grad_unique _ _ _ _ Q G) as K.
    destruct (sp_Eout s v), (sp_true s v). unfold vopp in K; cbn in K. injection K. intros. f_equal; lra. }
  rewrite E.
  assert (F : sp_Eout s v = sp_true s v <-> 3 * vdot v (sp_F0 s) * sp_cur s * sp_radius s * (vnorm v - sp_radius s ^ 2) / vnorm v ^ 5 = 0).
  { rewrite <- (vscal_zero_iff _ v N), <- D. split; [intro Q; rewrite Q; destruct (sp_true s v); vring|apply vsub_eq0]. }
  rewrite F. clear D F E G.
  assert (C : sp_cur s = 0 <-> sp_c1 s = sp_c0 s).
  { unfold sp_cur. split; intro Q; [|rewrite Q; unfold Rdiv; ring].
    apply (Rmult_eq_compat_r (sp_c1 s + 2 * sp_c0 s)) in Q. field_simplify in Q; lra. }
  rewrite <- C. assert (P5 : 0 < vnorm v ^ 5) by (apply pow_lt; exact P).
  split.
  - intro Q. apply (Rmult_eq_compat_r (vnorm v ^ 5)) in Q. unfold Rdiv in Q. rewrite Rmult_assoc, Rinv_l, Rmult_1_r, Rmult_0_l in Q by lra.
    apply Rmult_integral in Q. destruct Q as [Q|Q]; [|right; right; lra].
    apply Rmult_integral in Q. destruct Q as [Q|Q]; [|lra].
    apply Rmult_integral in Q. destruct Q as [Q|Q]; [|left; lra].
    right; left; lra.
  - unfold Rdiv. intros [Q|[Q|Q]]; rewrite Q; ring.
Qed.

(** the potential is continuous everywhere *)
Lemma is_cont_plus f g p : is_cont f p -> is_cont g p -> is_cont (fun q => f q + g q) p.
Proof.
  intros F G e He. destruct (F (e / 2) ltac:(lra)) as [d1 [D1 E1]], (G (e / 2) ltac:(lra)) as [d2 [D2 E2]].
  exists (Rmin d1 d2). split; [apply Rmin_pos; assumption|]. intros q Hq.
  specialize (E1 q (Rlt_le_trans _ _ _ Hq (Rmin_l _ _))). specialize (E2 q (Rlt_le_trans _ _ _ Hq (Rmin_r _ _))).
  replace (f q + g q - (f p + g p)) with ((f q - f p) + (g q - g p)) by ring.
  eapply Rle_lt_trans; [apply Rabs_triang|]. lra.
Qed.
Lemma sp_V_cont s p : valid_sphere s -> is_cont (sp_V s) p.
Proof.
  intros V. pose proof V as [Hr [H1 H0]].
  apply (is_cont_ext (fun q => vdot (vsub q (sp_loc s)) (vopp (sp_F0 s)) *
     (if Rltb (sp_radius s) (vnorm (vsub q (sp_loc s))) then 1 - sp_cur s * sp_radius s ^ 3 / vnorm (vsub q (sp_loc s)) ^ 3 else 1 - sp_cur s))).
  { intro q. unfold sp_V. cbv zeta. destruct (Rltb _ _); [reflexivity|]. rewrite <- (sp_cur_in s V). unfold Rdiv; ring. }
  apply is_cont_mult.
  - destruct (is_cont_coord p (sp_loc s)) as [A [B C]]. set (w := vopp (sp_F0 s)).
    assert (K : forall (g : vec3 -> R) c, is_cont g p -> is_cont (fun q => g q * c) p).
    { intros g c G. apply is_cont_mult; [exact G|]. intros e He. exists 1. split; [lra|]. intros q _. replace (c - c) with 0 by ring. rewrite Rabs_R0. exact He. }
    unfold vdot. apply is_cont_plus; [apply is_cont_plus|]; apply K; assumption.
  - apply (is_cont_radial (fun r => if Rltb (sp_radius s) r then 1 - sp_cur s * sp_radius s ^ 3 / r ^ 3 else 1 - sp_cur s)).
    set (x := vnorm (vsub p (sp_loc s))).
    apply (continuity_pt_ext (fun r => if Rlt_dec (sp_radius s) r then 1 - sp_cur s * sp_radius s ^ 3 / r ^ 3 else 1 - sp_cur s)).
    { intro r. unfold Rltb. destruct (Rlt_dec _ _); reflexivity. }
    apply glue_continuous.
    + intro L. eapply derive_continuity. der. apply pow_nonzero; lra.
    + intro L. eapply derive_continuity. der.
    + field. lra.
Qed.

(** equal coefficients: no sphere *)
Lemma sp_equal s p : valid_sphere s -> sp_c1 s = sp_c0 s -> sp_V s p = sp_prim s p /\ sp_E s p = sp_F0 s.
Proof.
  intros V E. assert (C : sp_cur s = 0) by (unfold sp_cur; rewrite E; unfold Rdiv; ring). pose proof (sp_cur_in s V) as D. rewrite C in D.
  unfold sp_V, sp_E, sp_prim, sp_Eout. cbv zeta. rewrite D, C. unfold Rdiv in *.
  destruct (Rltb _ _).
  - split; [ring|]. destruct (sp_F0 s), (vsub p (sp_loc s)). unfold vadd, vscal, vdiv; cbn. f_equal; unfold Rdiv; ring.
  - split; [|destruct (sp_F0 s); unfold vscal; cbn; f_equal; ring].
    replace (vdot (vsub p (sp_loc s)) (vopp (sp_F0 s)) * 3 * sp_c0 s * / (sp_c1 s + 2 * sp_c0 s))
      with (vdot (vsub p (sp_loc s)) (vopp (sp_F0 s)) * (3 * sp_c0 s * / (sp_c1 s + 2 * sp_c0 s))) by ring. rewrite D; ring.
Qed.

(** *** the surface: one-sided limits along the outward normal [n] *)
Definition ray (s : sph) (n : vec3) (t : R) : vec3 := vadd (sp_loc s) (vscal t n).
Lemma ray_sub s n t : vsub (ray s n t) (sp_loc s) = vscal t n.
Proof. unfold ray. destruct (sp_loc s), n; vring. Qed.
Lemma ray_norm s n t : vnorm n = 1 -> 0 <= t -> vnorm (vsub (ray s n t) (sp_loc s)) = t.
Proof. intros N H. rewrite ray_sub, vnorm_scal, N, Rabs_pos_eq by exact H. ring. Qed.

Lemma lim_right (f g : R -> R) a l : (forall t, a < t -> f t = g t) -> continuity_pt g a -> g a = l -> filterlim f (at_right a) (locally l).
Proof.
  intros E C L. subst l.
  apply (filterlim_ext_loc g). { exists (mkposreal 1 Rlt_0_1). intros t _ Ht. symmetry. apply E. exact Ht. }
  apply continuity_pt_filterlim in C. eapply filterlim_filter_le_1; [|exact C]. apply filter_le_within.
Qed.
Lemma lim_left (f g : R -> R) a l : (forall t, 0 < t < a -> f t = g t) -> 0 < a -> continuity_pt g a -> g a = l -> filterlim f (at_left a) (locally l).
Proof.
  intros E P C L. subst l.
  apply (filterlim_ext_loc g). { exists (mkposreal a P). intros t Ht1 Ht. symmetry. apply E. change (Rabs (t - a) < a) in Ht1. apply Rabs_def2 in Ht1. split; [lra|exact Ht]. }
  apply continuity_pt_filterlim in C. eapply filterlim_filter_le_1; [|exact C]. apply filter_le_within.
Qed.

Section Surface.
Variable s : sph.
Hypothesis V : valid_sphere s.
Variable n : vec3.
Hypothesis N : vnorm n = 1.
Let Rr := sp_radius s.
Let cur := sp_cur s.
Let e := vdot (sp_F0 s) n.

Lemma n_dot : vdot n n = 1.
Proof. rewrite <- vnorm2_dot, <- vnorm_sqr, N. ring. Qed.

Lemma Eout_dot t w : 0 < t -> vdot (sp_Eout s (vscal t n)) w = (1 - cur * Rr ^ 3 / t ^ 3) * vdot (sp_F0 s) w + 3 * e * cur * Rr / t ^ 2 * vdot n w.
Proof.
  intro T. unfold sp_Eout. fold cur Rr. rewrite vnorm_scal, N, Rabs_pos_eq by lra. rewrite Rmult_1_r.
  replace (vdot (vscal t n) (sp_F0 s)) with (t * e) by (unfold e; vring).
  generalize e. intro k. destruct n, (sp_F0 s), w; unfold vdot, vadd, vscal, vdiv; cbn. field. lra.
Qed.
Lemma true_dot t w : 0 < t -> vdot (sp_true s (vscal t n)) w = (1 - cur * Rr ^ 3 / t ^ 3) * vdot (sp_F0 s) w + 3 * e * cur * Rr ^ 3 / t ^ 3 * vdot n w.
Proof.
  intro T. unfold sp_true. fold cur Rr. rewrite vnorm_scal, N, Rabs_pos_eq by lra. rewrite Rmult_1_r.
  replace (vdot (vscal t n) (sp_F0 s)) with (t * e) by (unfold e; vring).
  generalize e. intro k. destruct n, (sp_F0 s), w; unfold vdot, vadd, vscal; cbn. field. lra.
Qed.

(** limits of the component of the returned field along [w] *)
Lemma E_lim_out w : filterlim (fun t => vdot (sp_E s (ray s n t)) w) (at_right Rr) (locally ((1 - cur) * vdot (sp_F0 s) w + 3 * e * cur / Rr * vdot n w)).
Proof.
  pose proof V as [HR _]. fold Rr in HR.
  apply (lim_right _ (fun t => (1 - cur * Rr ^ 3 / t ^ 3) * vdot (sp_F0 s) w + 3 * e * cur * Rr / t ^ 2 * vdot n w)).
  - intros t Ht. rewrite sp_E_out by (rewrite ray_norm by (try exact N; lra); exact Ht). rewrite ray_sub. apply Eout_dot. lra.
  - eapply derive_continuity. der; apply nz_pow; lra.
  - field. lra.
Qed.
Lemma E_lim_in w : filterlim (fun t => vdot (sp_E s (ray s n t)) w) (at_left Rr) (locally ((1 - cur) * vdot (sp_F0 s) w)).
Proof.
  pose proof V as [HR _]. fold Rr in HR.
  apply (lim_left _ (fun _ => (1 - cur) * vdot (sp_F0 s) w)); [|exact HR| |reflexivity].
  - intros t Ht. rewrite sp_E_in by (rewrite ray_norm by (try exact N; lra); fold Rr; lra). rewrite (sp_cur_in s V). fold cur. vring.
  - eapply derive_continuity. der.
Qed.
Lemma coef_out t : Rr < t -> sp_coef s (ray s n t) = sp_c0 s.
Proof. intro H. pose proof V as [HR _]. fold Rr in HR. unfold sp_coef. rewrite ray_norm by (try exact N; lra). rewrite (proj2 (Rleb_false _ _)) by exact H. reflexivity. Qed.
Lemma coef_in t : 0 < t < Rr -> sp_coef s (ray s n t) = sp_c1 s.
Proof. intro H. unfold sp_coef. rewrite ray_norm by (try exact N; lra). rewrite (proj2 (Rleb_true _ _)) by (fold Rr; lra). reflexivity. Qed.

Lemma in_out_c : sp_c1 s * (1 - cur) = sp_c0 s * (1 + 2 * cur).
Proof. pose proof V as [_ [H1 H0]]. unfold cur, sp_cur. field. lra. Qed.

Lemma J_lim_out : filterlim (fun t => vdot (vscal (sp_coef s (ray s n t)) (sp_E s (ray s n t))) n) (at_right Rr)
   (locally (sp_c0 s * ((1 - cur) * e + 3 * e * cur / Rr))).
Proof.
  pose proof V as [HR _]. fold Rr in HR.
  apply (lim_right _ (fun t => sp_c0 s * ((1 - cur * Rr ^ 3 / t ^ 3) * e + 3 * e * cur * Rr / t ^ 2))).
  - intros t Ht. rewrite coef_out by exact Ht. rewrite sp_E_out by (rewrite ray_norm by (try exact N; lra); exact Ht). rewrite ray_sub.
    replace (vdot (vscal (sp_c0 s) (sp_Eout s (vscal t n))) n) with (sp_c0 s * vdot (sp_Eout s (vscal t n)) n) by vring.
    rewrite Eout_dot by lra. rewrite n_dot. fold e. ring.
  - eapply derive_continuity. der; apply nz_pow; lra.
  - field. lra.
Qed.
Lemma J_lim_in : filterlim (fun t => vdot (vscal (sp_coef s (ray s n t)) (sp_E s (ray s n t))) n) (at_left Rr)
   (locally (sp_c0 s * ((1 - cur) * e + 3 * e * cur))).
Proof.
  pose proof V as [HR _]. fold Rr in HR.
  apply (lim_left _ (fun t => sp_c1 s * (1 - cur) * e)); [|exact HR| |].
  - intros t Ht. rewrite coef_in by exact Ht. rewrite sp_E_in by (rewrite ray_norm by (try exact N; lra); fold Rr; lra).
    rewrite (sp_cur_in s V). fold cur. unfold e. vring.
  - eapply derive_continuity. der.
  - rewrite in_out_c. ring.
Qed.
End Surface.

(** the field obtained from the potential, at points off the surface *)
Definition sp_gradV (s : sph) (p : vec3) : vec3 :=
  let v := vsub p (sp_loc s) in
  if Rltb (sp_radius s) (vnorm v) then sp_true s v else vscal (3 * sp_c0 s / (sp_c1 s + 2 * sp_c0 s)) (sp_F0 s).

Lemma sp_gradV_ok s p : valid_sphere s -> vnorm (vsub p (sp_loc s)) <> sp_radius s -> is_grad (sp_V s) p (vopp (sp_gradV s p)).
Proof.
  intros V H. unfold sp_gradV. cbv zeta. destruct (Rltb _ _) eqn:E.
  - apply sp_grad_out; [exact V|apply Rltb_true in E; exact E].
  - apply Rltb_false in E. rewrite <- (sp_E_in s p) by lra. apply sp_grad_in; [exact V|lra].
Qed.

Lemma gradV_lim_out s n w : valid_sphere s -> vnorm n = 1 ->
  filterlim (fun t => vdot (sp_gradV s (ray s n t)) w) (at_right (sp_radius s))
    (locally ((1 - sp_cur s) * vdot (sp_F0 s) w + 3 * vdot (sp_F0 s) n * sp_cur s * vdot n w)).
Proof.
  intros V N. pose proof V as [HR _].
  apply (lim_right _ (fun t => (1 - sp_cur s * sp_radius s ^ 3 / t ^ 3) * vdot (sp_F0 s) w + 3 * vdot (sp_F0 s) n * sp_cur s * sp_radius s ^ 3 / t ^ 3 * vdot n w)).
  - intros t Ht. unfold sp_gradV. cbv zeta. rewrite ray_norm by (try exact N; lra). rewrite (proj2 (Rltb_true _ _) Ht), ray_sub.
    apply true_dot; [exact N|lra].
  - eapply derive_continuity. der; apply nz_pow; lra.
  - field. lra.
Qed.
Lemma gradV_lim_in s n w : valid_sphere s -> vnorm n = 1 ->
  filterlim (fun t => vdot (sp_gradV s (ray s n t)) w) (at_left (sp_radius s)) (locally ((1 - sp_cur s) * vdot (sp_F0 s) w)).
Proof.
  intros V N. pose proof V as [HR _].
  apply (lim_left _ (fun _ => (1 - sp_cur s) * vdot (sp_F0 s) w)); [|exact HR| |reflexivity].
  - intros t Ht. unfold sp_gradV. cbv zeta. rewrite ray_norm by (try exact N; lra). rewrite (proj2 (Rltb_false _ _)) by lra.
    rewrite (sp_cur_in s V). vring.
  - eapply derive_continuity. der.
Qed.

Definition shell (s : sph) (dr : option R) : R := match dr with None => 5 / 100 * sp_radius s | Some d => d end.
Definition sp_rho (eps0 : R) (s : sph) (dr : option R) (p : vec3) : R :=
  let v := vsub p (sp_loc s) in
  if (Rltb (vnorm v) (sp_radius s + 1 / 2 * shell s dr) && Rltb (sp_radius s - 1 / 2 * shell s dr) (vnorm v))%bool
  then eps0 * 3 * vdot v (sp_F0 s) * sp_cur s / vnorm v else 0.
Lemma charge_density_pt eps0 s xyz dr : charge_density eps0 s xyz dr = Ok (map (sp_rho eps0 s dr) xyz).
Proof.
  unfold charge_density. cbv zeta. fold (shell s dr). rewrite !map_map. rewrite mask_select_map, map_map.
  rewrite (mask_assign_pointwise (fun p => (Rltb (vnorm (vsub p (sp_loc s))) (sp_radius s + 1 / 2 * shell s dr) && Rltb (sp_radius s - 1 / 2 * shell s dr) (vnorm (vsub p (sp_loc s))))%bool)
    (fun p => eps0 * 3 * vdot (vsub p (sp_loc s)) (sp_F0 s) * sp_cur s / vnorm (vsub p (sp_loc s))) (fun _ => 0)).
  reflexivity.
Qed.
Lemma sp_rho_value eps0 s dr n t : vnorm n = 1 -> 0 < t ->
  (Rabs (t - sp_radius s) < shell s dr / 2 -> sp_rho eps0 s dr (ray s n t) = eps0 * (3 * vdot (sp_F0 s) n * sp_cur s)) /\
  (shell s dr / 2 <= Rabs (t - sp_radius s) -> sp_rho eps0 s dr (ray s n t) = 0).
Proof.
  intros N T. unfold sp_rho. cbv zeta. rewrite ray_norm by (try exact N; lra). rewrite ray_sub.
  replace (vdot (vscal t n) (sp_F0 s)) with (t * vdot (sp_F0 s) n) by vring. split; intro H.
  - apply Rabs_def2 in H. rewrite (proj2 (Rltb_true _ _)), (proj2 (Rltb_true _ _)) by lra. cbn [andb]. field. lra.
  - destruct (Rltb t _) eqn:A; [|reflexivity]. destruct (Rltb _ t) eqn:B; [|reflexivity].
    apply Rltb_true in A, B. exfalso. apply Rlt_not_le in H; [exact H|]. apply Rabs_def1; lra.
Qed.

(** ** property-level lemmas *)
Definition total1 {A} (d : A) (f : list vec3 -> string -> result (fields A)) (p : vec3) : A :=
  match f [p] "total"%string with Ok (One (v :: _)) => v | _ => d end.

Lemma total1_modes {A} (d : A) sub f total primary : modes sub f total primary -> forall p, total1 d f p = total p.
Proof. intros M p. unfold total1. destruct (M [p]) as [E _]. rewrite E. reflexivity. Qed.
Lemma grad_fun_ext f g p v : (forall q, f q = g q) -> is_grad f p v -> is_grad g p v.
Proof. intros E. apply is_grad_ext. exact E. Qed.

Definition tV s := total1 0 (sphere_potential s).
Definition tE s := total1 vzero (sphere_field s).
Definition tJ s := total1 vzero (sphere_flux s).
Lemma tV_eq s p : tV s p = sp_V s p. Proof. apply (total1_modes _ _ _ _ _ (sphere_potential_modes s)). Qed.
Lemma tE_eq s p : tE s p = sp_E s p. Proof. apply (total1_modes _ _ _ _ _ (sphere_field_modes s)). Qed.
Lemma tJ_eq s p : tJ s p = vscal (sp_coef s p) (sp_E s p). Proof. apply (total1_modes _ _ _ _ _ (sphere_flux_modes s)). Qed.

Definition consistent_modes {A} (d : A) (add : A -> A -> A) (f : list vec3 -> string -> result (fields A)) (total : vec3 -> A) : Prop :=
  forall xyz, exists vp vs,
    f xyz "total"%string = Ok (One (map total xyz)) /\
    f xyz "primary"%string = Ok (One vp) /\
    f xyz "secondary"%string = Ok (One vs) /\
    (forall field, field <> "total"%string -> field <> "primary"%string -> field <> "secondary"%string -> f xyz field = Ok (Three (map total xyz) vp vs)) /\
    List.length vp = List.length xyz /\ List.length vs = List.length xyz /\
    (forall i, (i < List.length xyz)%nat -> nth i (map total xyz) d = add (nth i vp d) (nth i vs d)).

Lemma modes_consistent {A} (d : A) (add sub : A -> A -> A) f total primary : (forall a b, add b (sub a b) = a) ->
  modes sub f total primary -> consistent_modes d add f total.
Proof.
  intros AS M xyz. destruct (M xyz) as [E1 [E2 [E3 E4]]]. do 2 eexists. split; [exact E1|]. split; [exact E2|]. split; [exact E3|]. split; [exact E4|].
  rewrite !map_length. split; [reflexivity|]. split; [reflexivity|]. intros i Hi.
  rewrite (nth_indep _ d (total vzero)) by (rewrite map_length; exact Hi).
  rewrite (nth_indep (map primary xyz) d (primary vzero)) by (rewrite map_length; exact Hi).
  rewrite (nth_indep _ d ((fun p => sub (total p) (primary p)) vzero)) by (rewrite map_length; exact Hi).
  rewrite !map_nth. cbv beta. rewrite ?AS. first [reflexivity | rewrite (map_nth (fun p => sub (total p) (primary p))), AS; reflexivity].
Qed.
Lemma modes_ext {P A} sub (f : list P -> string -> result (fields A)) t t' p : (forall x, t x = t' x) -> modes sub f t p -> modes sub f t' p.
Proof.
  intros E M xyz. destruct (M xyz) as [E1 [E2 [E3 E4]]].
  assert (X : map t' xyz = map t xyz) by (apply map_ext; intro; symmetry; apply E).
  assert (Y : map (fun q => sub (t' q) (p q)) xyz = map (fun q => sub (t q) (p q)) xyz) by (apply map_ext; intro; rewrite E; reflexivity).
  rewrite X, Y. auto.
Qed.

Lemma sphere_modes s :
  consistent_modes 0 Rplus (sphere_potential s) (tV s) /\
  consistent_modes vzero vadd (sphere_field s) (tE s) /\
  consistent_modes vzero vadd (sphere_flux s) (tJ s).
Proof.
  split; [|split]; (eapply modes_consistent; [|eapply modes_ext; [|first [apply sphere_potential_modes|apply sphere_field_modes|apply sphere_flux_modes]]]).
  - intros a b; ring.
  - intro; symmetry; apply tV_eq.
  - intros a b; destruct a, b; vring.
  - intro; symmetry; apply tE_eq.
  - intros a b; destruct a, b; vring.
  - intro; symmetry; apply tJ_eq.
Qed.

Lemma sphere_inside s p : valid_sphere s -> vnorm (vsub p (sp_loc s)) < sp_radius s -> is_grad (tV s) p (vopp (tE s p)).
Proof. intros V H. rewrite tE_eq. eapply grad_fun_ext; [intro; symmetry; apply tV_eq|]. apply sp_grad_in; assumption. Qed.
Lemma sphere_outside_iff s p : valid_sphere s -> sp_radius s < vnorm (vsub p (sp_loc s)) ->
  (is_grad (tV s) p (vopp (tE s p)) <->
   (sp_c1 s = sp_c0 s \/ vdot (vsub p (sp_loc s)) (sp_F0 s) = 0 \/ vnorm (vsub p (sp_loc s)) = sp_radius s ^ 2)).
Proof.
  intros V H. rewrite tE_eq, <- (sp_E_grad_iff s p V H).
  split; apply grad_fun_ext; intro q; [|symmetry]; apply tV_eq.
Qed.
Lemma sphere_outside_true s p : valid_sphere s -> sp_radius s < vnorm (vsub p (sp_loc s)) ->
  let v := vsub p (sp_loc s) in let k := (sp_c1 s - sp_c0 s) / (sp_c1 s + 2 * sp_c0 s) in
  is_grad (tV s) p (vopp (vadd (vscal (1 - k * sp_radius s ^ 3 / vnorm v ^ 3) (sp_F0 s)) (vscal (3 * k * sp_radius s ^ 3 * vdot v (sp_F0 s) / vnorm v ^ 5) v))).
Proof.
  intros V H v k. eapply grad_fun_ext; [intro; symmetry; apply tV_eq|].
  pose proof (sp_grad_out s p V H) as G. fold v in G. unfold sp_true in G. fold k in G. fold (sp_cur s) in k.
  unfold k. replace (3 * sp_cur s * sp_radius s ^ 3 * vdot v (sp_F0 s)) with (3 * vdot v (sp_F0 s) * sp_cur s * sp_radius s ^ 3) by ring. exact G.
Qed.

Lemma sphere_outside_refuted : let s := SP 2 2 1 (V3 1 0 0) vzero in let p := V3 3 0 0 in
  valid_sphere s /\ sp_radius s < vnorm (vsub p (sp_loc s)) /\ ~ is_grad (tV s) p (vopp (tE s p)).
Proof.
  intros s p. assert (N : vnorm (vsub p (sp_loc s)) = 3) by (apply vnorm_unique; [lra|]; cbn; unfold vnorm2; cbn; ring).
  split; [unfold valid_sphere; cbn; lra|]. split; [rewrite N; cbn; lra|].
  rewrite sphere_outside_iff; [|unfold valid_sphere; cbn; lra|rewrite N; cbn; lra]. rewrite N. unfold vdot; cbn. lra.
Qed.

Lemma sphere_cont s p : valid_sphere s -> is_cont (tV s) p.
Proof. intro V. eapply is_cont_ext; [intro; symmetry; apply tV_eq|]. apply sp_V_cont; exact V. Qed.

Lemma sphere_no_contrast s p : valid_sphere s -> sp_c1 s = sp_c0 s ->
  tV s p = - vdot (sp_F0 s) (vsub p (sp_loc s)) /\ tE s p = sp_F0 s /\ tJ s p = vscal (sp_c0 s) (sp_F0 s).
Proof.
  intros V E. rewrite tV_eq, tE_eq, tJ_eq. destruct (sp_equal s p V E) as [A B]. rewrite A, B. split; [unfold sp_prim; vring|]. split; [reflexivity|].
  unfold sp_coef. destruct (Rleb _ _); [rewrite E|]; reflexivity.
Qed.

Lemma filterlim_ext' (f g : R -> R) F {FF : Filter F} (G : (R -> Prop) -> Prop) : (forall t, f t = g t) -> filterlim f F G -> filterlim g F G.
Proof. intro E. apply (filterlim_ext f g E). Qed.

(** C53/C54: surface conditions of the returned fields *)
Lemma sphere_surface s n w : valid_sphere s -> vnorm n = 1 ->
  let p := fun t => vadd (sp_loc s) (vscal t n) in let k := (sp_c1 s - sp_c0 s) / (sp_c1 s + 2 * sp_c0 s) in let e := vdot (sp_F0 s) n in
  filterlim (fun t => vdot (tE s (p t)) w) (at_right (sp_radius s)) (locally ((1 - k) * vdot (sp_F0 s) w + 3 * k * e / sp_radius s * vdot n w)) /\
  filterlim (fun t => vdot (tE s (p t)) w) (at_left (sp_radius s)) (locally ((1 - k) * vdot (sp_F0 s) w)) /\
  filterlim (fun t => vdot (tJ s (p t)) n) (at_right (sp_radius s)) (locally (sp_c0 s * e * (1 - k + 3 * k / sp_radius s))) /\
  filterlim (fun t => vdot (tJ s (p t)) n) (at_left (sp_radius s)) (locally (sp_c0 s * e * (1 - k + 3 * k))).
Proof.
  intros V N p k e. pose proof V as [HR _].
  split; [|split; [|split]].
  - eapply (filterlim_ext' _ _ _ _); [intro t; rewrite tE_eq; reflexivity|]. unfold k, e. fold (sp_cur s).
    replace (3 * sp_cur s * vdot (sp_F0 s) n / sp_radius s) with (3 * vdot (sp_F0 s) n * sp_cur s / sp_radius s) by (unfold Rdiv; ring).
    apply (E_lim_out s V n N w).
  - eapply (filterlim_ext' _ _ _ _); [intro t; rewrite tE_eq; reflexivity|]. apply (E_lim_in s V n N w).
  - eapply (filterlim_ext' _ _ _ _); [intro t; rewrite tJ_eq; reflexivity|]. unfold k, e. fold (sp_cur s).
    replace (sp_c0 s * vdot (sp_F0 s) n * (1 - sp_cur s + 3 * sp_cur s / sp_radius s)) with
      (sp_c0 s * ((1 - sp_cur s) * vdot (sp_F0 s) n + 3 * vdot (sp_F0 s) n * sp_cur s / sp_radius s)) by (field; lra).
    apply (J_lim_out s V n N).
  - eapply (filterlim_ext' _ _ _ _); [intro t; rewrite tJ_eq; reflexivity|]. unfold k, e. fold (sp_cur s).
    replace (sp_c0 s * vdot (sp_F0 s) n * (1 - sp_cur s + 3 * sp_cur s)) with
      (sp_c0 s * ((1 - sp_cur s) * vdot (sp_F0 s) n + 3 * vdot (sp_F0 s) n * sp_cur s)) by ring.
    apply (J_lim_in s V n N).
Qed.

Lemma right_lim_unique (f : R -> R) a x y : filterlim f (at_right a) (locally x) -> filterlim f (at_right a) (locally y) -> x = y.
Proof. intros A B. exact (filterlim_locally_unique (F := at_right a) f x y A B). Qed.
Lemma left_lim_unique (f : R -> R) a x y : filterlim f (at_left a) (locally x) -> filterlim f (at_left a) (locally y) -> x = y.
Proof. intros A B. exact (filterlim_locally_unique (F := at_left a) f x y A B). Qed.

Lemma sphere_normal_flux_iff s n (jo ji : R) : valid_sphere s -> vnorm n = 1 ->
  let p := fun t => vadd (sp_loc s) (vscal t n) in
  filterlim (fun t => vdot (tJ s (p t)) n) (at_right (sp_radius s)) (locally jo) ->
  filterlim (fun t => vdot (tJ s (p t)) n) (at_left (sp_radius s)) (locally ji) ->
  (jo = ji <-> sp_radius s = 1 \/ sp_c1 s = sp_c0 s \/ vdot (sp_F0 s) n = 0).
Proof.
  intros V N p O I. destruct (sphere_surface s n n V N) as [_ [_ [O' I']]].
  pose proof (right_lim_unique _ _ _ _ O O') as EO. pose proof (left_lim_unique _ _ _ _ I I') as EI. subst jo ji.
  pose proof V as [HR [H1 H0]]. set (k := (sp_c1 s - sp_c0 s) / _). set (e := vdot _ _).
  assert (C : k = 0 <-> sp_c1 s = sp_c0 s).
  { unfold k. split; intro Q; [|rewrite Q; unfold Rdiv; ring].
    apply (Rmult_eq_compat_r (sp_c1 s + 2 * sp_c0 s)) in Q. field_simplify in Q; lra. }
  rewrite <- C. split.
  - intro Q. assert (Z : sp_c0 s * (e * (k * (1 - sp_radius s))) = 0).
    { apply (Rmult_eq_compat_r (sp_radius s)) in Q. field_simplify in Q; [|lra]. lra. }
    apply Rmult_integral in Z. destruct Z as [Z|Z]; [lra|]. apply Rmult_integral in Z. destruct Z as [Z|Z]; [tauto|].
    apply Rmult_integral in Z. destruct Z as [Z|Z]; [tauto|left; lra].
  - intros [Q|[Q|Q]]; match goal with |- ?a = ?b => change (@eq R a b) end; [rewrite Q; field|rewrite Q; field; lra|rewrite Q; ring].
Qed.

Lemma sphere_tangential s n w : valid_sphere s -> vnorm n = 1 -> vdot n w = 0 ->
  exists h, filterlim (fun t => vdot (tE s (vadd (sp_loc s) (vscal t n))) w) (at_right (sp_radius s)) (locally h) /\
            filterlim (fun t => vdot (tE s (vadd (sp_loc s) (vscal t n))) w) (at_left (sp_radius s)) (locally h).
Proof.
  intros V N T. destruct (sphere_surface s n w V N) as [O [I _]]. rewrite T, Rmult_0_r, Rplus_0_r in O. eexists. split; [exact O|exact I].
Qed.

(** the same with the field derived from the returned potential *)
Lemma sphere_potential_surface s n : valid_sphere s -> vnorm n = 1 ->
  exists (E : vec3 -> vec3) (eo ei : R),
    (forall p, vnorm (vsub p (sp_loc s)) <> sp_radius s -> is_grad (tV s) p (vopp (E p))) /\
    filterlim (fun t => vdot (E (vadd (sp_loc s) (vscal t n))) n) (at_right (sp_radius s)) (locally eo) /\
    filterlim (fun t => vdot (E (vadd (sp_loc s) (vscal t n))) n) (at_left (sp_radius s)) (locally ei) /\
    sp_c0 s * eo = sp_c1 s * ei /\
    (forall eps0 dr t, 0 < t -> let d := match dr with None => 5 / 100 * sp_radius s | Some d => d end in
      (Rabs (t - sp_radius s) < d / 2 -> charge_density eps0 s [vadd (sp_loc s) (vscal t n)] dr = Ok [eps0 * (eo - ei)]) /\
      (d / 2 <= Rabs (t - sp_radius s) -> charge_density eps0 s [vadd (sp_loc s) (vscal t n)] dr = Ok [0])).
Proof.
  intros V N. exists (sp_gradV s), ((1 - sp_cur s) * vdot (sp_F0 s) n + 3 * vdot (sp_F0 s) n * sp_cur s * vdot n n), ((1 - sp_cur s) * vdot (sp_F0 s) n).
  split; [|split; [|split; [|split]]].
  - intros p H. eapply grad_fun_ext; [intro; symmetry; apply tV_eq|]. apply sp_gradV_ok; assumption.
  - apply gradV_lim_out; assumption.
  - apply gradV_lim_in; assumption.
  - rewrite (n_dot n N). pose proof (in_out_c s V) as K. rewrite <- (Rmult_assoc (sp_c1 s)), K. ring.
  - intros eps0 dr t T d. rewrite (n_dot n N), charge_density_pt. cbn [map]. destruct (sp_rho_value eps0 s dr n t N T) as [A B]. split; intro H.
    + fold (ray s n t). rewrite (A H). do 2 f_equal. ring.
    + fold (ray s n t). rewrite (B H). reflexivity.
Qed.

Lemma sphere_normal_refuted : let s := SP 2 2 1 (V3 1 0 0) vzero in let n := V3 1 0 0 in
  exists jo ji,
  filterlim (fun t => vdot (tJ s (vadd (sp_loc s) (vscal t n))) n) (at_right (sp_radius s)) (locally jo) /\
  filterlim (fun t => vdot (tJ s (vadd (sp_loc s) (vscal t n))) n) (at_left (sp_radius s)) (locally ji) /\ jo <> ji.
Proof.
  intros s n. assert (V : valid_sphere s) by (unfold valid_sphere; cbn; lra).
  assert (N : vnorm n = 1) by (apply vnorm_unique; [lra|]; unfold vnorm2; cbn; ring).
  destruct (sphere_surface s n n V N) as [_ [_ [O I]]]. do 2 eexists. split; [exact O|]. split; [exact I|].
  unfold vdot; cbn. lra.
Qed.
