(** Linearity of the array-valued evaluations. *)
From Coq Require Import Reals Lra Lia List String.
From Coquelicot Require Import Coquelicot.
From Verif Require Import Vec3 Cplx Numpy Model_Spatial Model_Static Model_Gravity Model_FDEM Model_TDEM Model_Prism Spec_Static Spec_Linear Proof_Static3 Proof_Gravity Proof_Sphere Proof_Linear.
Import ListNotations.
Open Scope R_scope.

Lemma zipw_map {A B} (f : B -> B -> B) (g h k : A -> B) l : (forall x, k x = f (g x) (h x)) -> map k l = zipw f (map g l) (map h l).
Proof. intros E. unfold zipw. induction l; cbn; [reflexivity|]. now rewrite E, IHl. Qed.

Lemma gs_linear R c xyz a b r1 r2 : let s rho := GS R rho c in let rho := a * r1 + b * r2 in
  gs_potential_grid (s rho) xyz = rzip (scomb a b) (gs_potential_grid (s r1) xyz) (gs_potential_grid (s r2) xyz) /\
  gs_field_grid (s rho) xyz = rzip (vcomb a b) (gs_field_grid (s r1) xyz) (gs_field_grid (s r2) xyz) /\
  gs_gradient_grid (s rho) xyz = rzip (omap2 (mcomb a b)) (gs_gradient_grid (s r1) xyz) (gs_gradient_grid (s r2) xyz).
Proof.
  cbv zeta. rewrite !gs_potential_grid_pt, !gs_field_grid_pt, !gs_gradient_grid_pt. unfold rzip. cbn [rbind].
  assert (M : 4 / 3 * PI * R ^ 3 * (a * r1 + b * r2) = a * (4 / 3 * PI * R ^ 3 * r1) + b * (4 / 3 * PI * R ^ 3 * r2)) by ring.
  repeat split; f_equal; apply zipw_map; intro p.
  - unfold gs_potential_pt, gs_as_point_mass, gs_mass. cbn [gs_radius gs_rho gs_loc]. rewrite M. destruct (pm_linear c p a b (4 / 3 * PI * R ^ 3 * r1) (4 / 3 * PI * R ^ 3 * r2)) as [E _].
    destruct (Rltb _ _); [exact E|unfold scomb, Rdiv; ring].
  - unfold gs_field_pt, gs_as_point_mass, gs_mass. cbn [gs_radius gs_rho gs_loc]. rewrite M. destruct (pm_linear c p a b (4 / 3 * PI * R ^ 3 * r1) (4 / 3 * PI * R ^ 3 * r2)) as (_ & E & _).
    destruct (Rltb _ _); [exact E|]. unfold vcomb, Rdiv. destruct (vsub p c). vring.
  - unfold gs_gradient_pt, gs_as_point_mass, gs_mass. cbn [gs_radius gs_rho gs_loc]. cbv zeta. rewrite M. destruct (pm_linear c p a b (4 / 3 * PI * R ^ 3 * r1) (4 / 3 * PI * R ^ 3 * r2)) as (_ & _ & E).
    destruct (Reqb _ _); [reflexivity|]. destruct (Rltb _ _); cbn [omap2]; [now rewrite E|]. f_equal. unfold mcomb, Rdiv. apply mat3_eq; vring.
Qed.
Lemma dispatch_zip {P A} (sub f : A -> A -> A) field (t1 t2 p1 p2 t p : P -> A) l :
  (forall x y z w, sub (f x y) (f z w) = f (sub x z) (sub y w)) -> (forall x, t x = f (t1 x) (t2 x)) -> (forall x, p x = f (p1 x) (p2 x)) ->
  dispatch sub field (map t l) (map p l) = fzip f (dispatch sub field (map t1 l) (map p1 l)) (dispatch sub field (map t2 l) (map p2 l)).
Proof.
  intros S T Q. unfold dispatch. rewrite !map_combine_map.
  pose proof (zipw_map f t1 t2 t l T) as ET. pose proof (zipw_map f p1 p2 p l Q) as EP.
  assert (ES := zipw_map f (fun x => sub (t1 x) (p1 x)) (fun x => sub (t2 x) (p2 x)) (fun x => sub (t x) (p x)) l (fun x => eq_trans (f_equal2 sub (T x) (Q x)) (S _ _ _ _))).
  destruct (String.eqb field "total"); [cbn [fzip]; now rewrite ET|]. destruct (String.eqb field "primary"); [cbn [fzip]; now rewrite EP|].
  destruct (String.eqb field "secondary"); cbn [fzip fst snd]; [f_equal; exact ES|f_equal; [exact ET|exact EP|exact ES]].
Qed.
Lemma vcomb_sub a b x y z w : vsub (vcomb a b x y) (vcomb a b z w) = vcomb a b (vsub x z) (vsub y w).
Proof. destruct x, y, z, w. unfold vcomb. vring. Qed.
Lemma scomb_sub a b x y z w : scomb a b x y - scomb a b z w = scomb a b (x - z) (y - w).
Proof. unfold scomb. ring. Qed.
Lemma sp_E_comb R c1 c0 c a b u v p : sp_E (SP R c1 c0 (vcomb a b u v) c) p = vcomb a b (sp_E (SP R c1 c0 u c) p) (sp_E (SP R c1 c0 v c) p).
Proof.
  unfold sp_E, sp_Eout, sp_cur. cbn [sp_radius sp_c1 sp_c0 sp_F0 sp_loc]. generalize (vsub p c). intros d.
  destruct (Rltb _ _); [|apply vcomb_scal]. rewrite vdot_comb. generalize (vdot d u) (vdot d v) (vnorm d). intros. destruct d, u, v. unfold vcomb, vdiv, Rdiv. vring.
Qed.
Lemma sph_linear R c1 c0 c eps0 dr xyz field a b u v : let s F := SP R c1 c0 F c in let F := vcomb a b u v in
  sphere_potential (s F) xyz field = rfzip (scomb a b) (sphere_potential (s u) xyz field) (sphere_potential (s v) xyz field) /\
  sphere_field (s F) xyz field = rfzip (vcomb a b) (sphere_field (s u) xyz field) (sphere_field (s v) xyz field) /\
  sphere_flux (s F) xyz field = rfzip (vcomb a b) (sphere_flux (s u) xyz field) (sphere_flux (s v) xyz field) /\
  charge_density eps0 (s F) xyz dr = rzip (scomb a b) (charge_density eps0 (s u) xyz dr) (charge_density eps0 (s v) xyz dr).
Proof.
  cbv zeta.
  assert (PV : forall s, sphere_potential s xyz field = Ok (dispatch Rminus field (map (sp_V s) xyz) (map (fun p => vdot (vsub p (sp_loc s)) (vopp (sp_F0 s))) xyz))).
  { intros s. unfold sphere_potential. rewrite sp_total_potential_pt. reflexivity. }
  assert (PE : forall s, sphere_field s xyz field = Ok (dispatch vsub field (map (sp_E s) xyz) (map (fun _ => sp_F0 s) xyz))).
  { intros s. unfold sphere_field. rewrite sp_total_field_pt. cbn [rbind]. unfold sp_primary_field.
    replace (vadd vzero (sp_F0 s)) with (sp_F0 s) by (destruct (sp_F0 s); vring). reflexivity. }
  assert (PJ : forall s, sphere_flux s xyz field = Ok (dispatch vsub field (map (fun p => vscal (sp_coef s p) (sp_E s p)) xyz) (map (fun _ => vscal (sp_c0 s) (sp_F0 s)) xyz))).
  { intros s. unfold sphere_flux. cbv zeta. rewrite sp_total_field_pt, !map_map.
    rewrite (mask_fill_pointwise (fun p => Rleb (vnorm (vsub p (sp_loc s))) (sp_radius s)) (sp_c1 s) (fun _ => sp_c0 s)). cbn [rbind].
    unfold sp_primary_field. rewrite map_map, map_combine_map. replace (vadd vzero (sp_F0 s)) with (sp_F0 s) by (destruct (sp_F0 s); vring). reflexivity. }
  rewrite !PV, !PE, !PJ, !charge_density_pt. unfold rfzip, rzip. cbn [rbind]. repeat split; f_equal.
  - apply dispatch_zip; [intros; apply scomb_sub| |]; intros p; cbn [sp_F0 sp_loc].
    + unfold sp_V, sp_cur. cbn [sp_radius sp_c1 sp_c0 sp_F0 sp_loc]. generalize (vsub p c). intros d.
      assert (E : vdot d (vopp (vcomb a b u v)) = scomb a b (vdot d (vopp u)) (vdot d (vopp v))) by (destruct d, u, v; unfold vcomb, scomb; vunf; ring).
      rewrite E. unfold scomb, Rdiv. destruct (Rltb _ _); ring.
    + generalize (vsub p c). intros d. destruct d, u, v; unfold vcomb, scomb; vunf; ring.
  - apply dispatch_zip; [intros; apply vcomb_sub| |]; intros p; [apply sp_E_comb|reflexivity].
  - apply dispatch_zip; [intros; apply vcomb_sub| |]; intros p.
    + rewrite sp_E_comb. apply vcomb_scal.
    + apply vcomb_scal.
  - apply zipw_map. intros p. unfold sp_rho, shell, sp_cur. cbn [sp_radius sp_c1 sp_c0 sp_F0 sp_loc]. rewrite vdot_comb.
    destruct (_ && _)%bool; unfold scomb, Rdiv; ring.
Qed.
Lemma hs_V_comb rho c p a b I1 I2 : hs_V (HS rho (a * I1 + b * I2) c) p = scomb a b (hs_V (HS rho I1 c) p) (hs_V (HS rho I2 c) p).
Proof.
  unfold hs_V, hs_primary, hs_image. cbn [hs_rho hs_current hs_loc]. unfold pc_potential, point_current.
  destruct (wire_linear [c] (1 / rho) 0 p a b I1 I2) as (E & _), (wire_linear [mirror c] (1 / rho) 0 p a b I1 I2) as (E' & _). rewrite E, E'. unfold scomb. ring.
Qed.
Lemma hs_E_comb rho c p a b I1 I2 : hs_E (HS rho (a * I1 + b * I2) c) p = vcomb a b (hs_E (HS rho I1 c) p) (hs_E (HS rho I2 c) p).
Proof.
  unfold hs_E, hs_primary, hs_image. cbn [hs_rho hs_current hs_loc]. unfold pc_electric_field, point_current.
  destruct (wire_linear [c] (1 / rho) 0 p a b I1 I2) as (_ & E & _), (wire_linear [mirror c] (1 / rho) 0 p a b I1 I2) as (_ & E' & _). rewrite E, E'.
  unfold vcomb. vring.
Qed.
Lemma rzip_rmap {A} (f : A -> A -> A) (g : A -> A) u v : (forall x y, g (f x y) = f (g x) (g y)) -> rmap (map g) (rzip f u v) = rzip f (rmap (map g) u) (rmap (map g) v).
Proof.
  intros E. destruct u as [u|], v as [v|]; cbn; try reflexivity. f_equal. unfold zipw. rewrite map_map. revert v. induction u as [|x u IH]; intros [|y v]; cbn; try reflexivity. now rewrite E, IH.
Qed.
Lemma hs_linear rho c xyz a b I1 I2 : let s I := HS rho I c in let I := a * I1 + b * I2 in
  hs_potential (s I) xyz = rzip (scomb a b) (hs_potential (s I1) xyz) (hs_potential (s I2) xyz) /\
  hs_electric_field (s I) xyz = rzip (vcomb a b) (hs_electric_field (s I1) xyz) (hs_electric_field (s I2) xyz) /\
  hs_current_density (s I) xyz = rzip (vcomb a b) (hs_current_density (s I1) xyz) (hs_current_density (s I2) xyz).
Proof.
  cbv zeta.
  assert (E : hs_electric_field (HS rho (a * I1 + b * I2) c) xyz = rzip (vcomb a b) (hs_electric_field (HS rho I1 c) xyz) (hs_electric_field (HS rho I2 c) xyz)).
  { unfold hs_electric_field. destruct (any_above xyz); [reflexivity|]. unfold rzip. cbn [rbind]. f_equal. apply zipw_map. intros. apply hs_E_comb. }
  split; [|split; [exact E|]].
  - unfold hs_potential. destruct (any_above xyz); [reflexivity|]. unfold rzip. cbn [rbind]. f_equal. apply zipw_map. intros. apply hs_V_comb.
  - unfold hs_current_density. rewrite E. cbn [hs_rho]. apply rzip_rmap. intros. apply vdiv_comb.
Qed.
Lemma zip_sub_comb a b x y z w : List.length x = List.length y -> List.length z = List.length w ->
  zip_sub (zipw (scomb a b) x y) (zipw (scomb a b) z w) = zipw (scomb a b) (zip_sub x z) (zip_sub y w).
Proof.
  unfold zip_sub, zipw. revert y z w. induction x as [|p x IH]; intros [|q y] [|r z] [|t w]; cbn; try discriminate; try reflexivity. intros A B.
  f_equal; [apply scomb_sub|apply IH; lia].
Qed.
Lemma zip_vsub_comb a b x y z w : List.length x = List.length y -> List.length z = List.length w ->
  zip_vsub (zipw (vcomb a b) x y) (zipw (vcomb a b) z w) = zipw (vcomb a b) (zip_vsub x z) (zip_vsub y w).
Proof.
  unfold zip_vsub, zipw. revert y z w. induction x as [|p x IH]; intros [|q y] [|r z] [|t w]; cbn -[vcomb vsub]; try discriminate; try reflexivity. intros A B.
  f_equal; [apply vcomb_sub|apply IH; lia].
Qed.
Lemma dh_linear rho A B xm xn a b I1 I2 : let s I := DHS rho I A B in let I := a * I1 + b * I2 in
  dh_potential (s I) xm xn = rzip (scomb a b) (dh_potential (s I1) xm xn) (dh_potential (s I2) xm xn) /\
  dh_electric_field (s I) xm xn = rzip (vcomb a b) (dh_electric_field (s I1) xm xn) (dh_electric_field (s I2) xm xn) /\
  dh_current_density (s I) xm xn = rzip (vcomb a b) (dh_current_density (s I1) xm xn) (dh_current_density (s I2) xm xn).
Proof.
  cbv zeta.
  assert (E : dh_electric_field (DHS rho (a * I1 + b * I2) A B) xm xn = rzip (vcomb a b) (dh_electric_field (DHS rho I1 A B) xm xn) (dh_electric_field (DHS rho I2 A B) xm xn)).
  { unfold dh_electric_field, dh_sa, dh_sb. cbn [dh_rho dh_current dh_a dh_b]. unfold hs_electric_field.
    destruct (any_above xm) eqn:Am; [reflexivity|]. destruct xn as [n|]; [destruct (any_above n) eqn:An; [reflexivity|]|]; unfold rzip; cbn [rbind]; f_equal;
    rewrite !(zipw_map (vcomb a b) _ _ (hs_E (HS rho (a * I1 + b * I2) _)) _ (fun p => hs_E_comb rho _ p a b I1 I2)).
    - rewrite !zip_vsub_comb; rewrite ?map_length; try reflexivity; unfold zip_vsub; rewrite !map_length, !combine_length, !map_length; reflexivity.
    - rewrite zip_vsub_comb; rewrite ?map_length; reflexivity. }
  split; [|split; [exact E|]].
  - unfold dh_potential, dh_sa, dh_sb. cbn [dh_rho dh_current dh_a dh_b]. unfold hs_potential.
    destruct (any_above xm) eqn:Am; [reflexivity|]. destruct xn as [n|]; [destruct (any_above n) eqn:An; [reflexivity|]|]; unfold rzip; cbn [rbind]; f_equal;
    rewrite !(zipw_map (scomb a b) _ _ (hs_V (HS rho (a * I1 + b * I2) _)) _ (fun p => hs_V_comb rho _ p a b I1 I2)).
    + rewrite !zip_sub_comb; rewrite ?map_length; try reflexivity; unfold zip_sub; rewrite !map_length, !combine_length, !map_length; reflexivity.
    + rewrite zip_sub_comb; rewrite ?map_length; reflexivity.
  - unfold dh_current_density. rewrite E. cbn [dh_rho]. apply rzip_rmap. intros. apply vdiv_comb.
Qed.
Lemma mag_prism_linear box mu_0 a b u v p pts : let m := vcomb a b u v in
  scalar_potential box m p = scomb a b (scalar_potential box u p) (scalar_potential box v p) /\
  magnetic_field box m p = vcomb a b (magnetic_field box u p) (magnetic_field box v p) /\
  magnetic_field_gradient box m p = mcomb a b (magnetic_field_gradient box u p) (magnetic_field_gradient box v p) /\
  magnetic_flux_density mu_0 box m pts = rzip (vcomb a b) (magnetic_flux_density mu_0 box u pts) (magnetic_flux_density mu_0 box v pts).
Proof.
  cbv zeta.
  assert (H : forall q, magnetic_field box (vcomb a b u v) q = vcomb a b (magnetic_field box u q) (magnetic_field box v q)).
  { intros q. unfold magnetic_field. cbv zeta. destruct u as [u0 u1 u2], v as [v0 v1 v2]. unfold vcomb, Rdiv. cbn [vx vy vz vadd vscal]. apply vec3_eq; cbn [vx vy vz vadd vscal]; ring. }
  split; [|split; [apply H|split]].
  - unfold scalar_potential. cbv zeta. destruct u as [u0 u1 u2], v as [v0 v1 v2]. unfold vcomb, scomb, Rdiv. cbn [vx vy vz vadd vscal]. ring.
  - unfold magnetic_field_gradient. cbv zeta. destruct u as [u0 u1 u2], v as [v0 v1 v2]. unfold vcomb, mcomb, Rdiv. apply mat3_eq; apply vec3_eq; cbn [vx vy vz vadd vscal madd mscal m0 m1 m2]; ring.
  - unfold magnetic_flux_density. cbv zeta.
    assert (P : forall w, (do H <- mask_assign (map (is_inside box) pts) (map (magnetic_field box w) pts)
        (map (fun h => vadd h w) (mask_select (map (is_inside box) pts) (map (magnetic_field box w) pts))); Ok (map (vscal mu_0) H))
       = Ok (map (fun q => vscal mu_0 (if is_inside box q then vadd (magnetic_field box w q) w else magnetic_field box w q)) pts)).
    { intros w. rewrite mask_select_map, map_map, (mask_assign_pointwise (is_inside box) (fun q => vadd (magnetic_field box w q) w) (magnetic_field box w)). cbn [rbind]. now rewrite map_map. }
    rewrite !P. unfold rzip. cbn [rbind]. f_equal. apply zipw_map. intros q. rewrite H. rewrite <- vcomb_scal. f_equal. destruct (is_inside box q); [|reflexivity]. unfold vcomb. vring.
Qed.
Lemma vmd_comb t sg mu x y a b m1 m2 : vmd_H t sg mu (a * m1 + b * m2) x y = vcomb a b (vmd_H t sg mu m1 x y) (vmd_H t sg mu m2 x y) /\
  vmd_dH t sg mu (a * m1 + b * m2) x y = vcomb a b (vmd_dH t sg mu m1 x y) (vmd_dH t sg mu m2 x y).
Proof.
  unfold vmd_H, vmd_dH. cbv zeta. split; match goal with |- vscal _ ?w = _ => generalize w end; intros []; unfold vcomb, Rdiv; vring.
Qed.
Lemma tv_linear med c row a b m1 m2 : let s m := TV med m c in let m := a * m1 + b * m2 in
  tv_H (s m) row = rcomb a b (tv_H (s m1) row) (tv_H (s m2) row) /\ tv_dH (s m) row = rcomb a b (tv_dH (s m1) row) (tv_dH (s m2) row) /\
  tv_B (s m) row = rcomb a b (tv_B (s m1) row) (tv_B (s m2) row) /\ tv_dB (s m) row = rcomb a b (tv_dB (s m1) row) (tv_dB (s m2) row).
Proof.
  cbv zeta.
  assert (X : tv_H (TV med (a * m1 + b * m2) c) row = rcomb a b (tv_H (TV med m1 c) row) (tv_H (TV med m2 c) row) /\ tv_dH (TV med (a * m1 + b * m2) c) row = rcomb a b (tv_dH (TV med m1 c) row) (tv_dH (TV med m2 c) row)).
  { unfold tv_H, tv_dH, tv_call. cbn [tv_med tv_moment tv_loc]. destruct row as [|x [|y [|z [|w row]]]]; try (split; reflexivity); unfold rcomb; cbn [rbind]; 
    destruct (vmd_comb (td_time med) (td_sigma med) (td_mu med) (x - vx c) (y - vy c) a b m1 m2) as [E F]; rewrite E, F; split; reflexivity. }
  destruct X as [X Y]. split; [exact X|split; [exact Y|]]. unfold tv_B, tv_dB. rewrite X, Y. cbn [tv_med].
  assert (Q : forall u v, rmap (vscal (td_mu med)) (rcomb a b u v) = rcomb a b (rmap (vscal (td_mu med)) u) (rmap (vscal (td_mu med)) v)).
  { intros [u|] [v|]; cbn -[vcomb vscal]; try reflexivity. now rewrite vcomb_scal. }
  split; apply Q.
Qed.
Lemma tloop_linear t sg mu R a b I1 I2 n k1 k2 :
  tloop_hz t sg mu R (a * I1 + b * I2) n = scomb a b (tloop_hz t sg mu R I1 n) (tloop_hz t sg mu R I2 n) /\
  tloop_dbz t sg mu R (a * I1 + b * I2) n = scomb a b (tloop_dbz t sg mu R I1 n) (tloop_dbz t sg mu R I2 n) /\
  tloop_hz t sg mu R I1 (a * k1 + b * k2) = scomb a b (tloop_hz t sg mu R I1 k1) (tloop_hz t sg mu R I1 k2) /\
  tloop_dbz t sg mu R I1 (a * k1 + b * k2) = scomb a b (tloop_dbz t sg mu R I1 k1) (tloop_dbz t sg mu R I1 k2).
Proof. unfold tloop_hz, tloop_dbz, scomb, Rdiv. cbv zeta. repeat split; ring. Qed.
