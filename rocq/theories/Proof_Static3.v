From Coq Require Import Reals Lra Lia List Bool String Ascii.
From Coquelicot Require Import Coquelicot.
From Verif Require Import Vec3 Numpy Calculus Deriv Integral Model_Spatial Proof_Spatial Model_Static Proof_Static Proof_Static2.
From Verif Require Import Spec_Static.
Import ListNotations.
Open Scope R_scope.

(** *** C40 *)
Lemma atan2_cos_sin r phi : 0 < r -> cos (atan2 (r * sin phi) (r * cos phi)) = cos phi /\ sin (atan2 (r * sin phi) (r * cos phi)) = sin phi.
Proof.
  intro H. destruct (atan2_polar (r * cos phi) (r * sin phi)) as [A B].
  rewrite polar_norm in A, B by lra. split; [apply (Rmult_eq_reg_l r); lra|apply (Rmult_eq_reg_l r); lra].
Qed.

Lemma as_row v : as_vec3 (row_of v) = v.
Proof. destruct v; reflexivity. Qed.

Lemma with_coordinates_cart f c p : lower c = "cartesian"%string -> with_coordinates f c p = f p.
Proof. intro L. unfold with_coordinates. rewrite L. reflexivity. Qed.
Lemma with_coordinates_cyl0 f c r phi z : lower c = "cylindrical"%string ->
  with_coordinates f c (V3 r phi z) =
  (do a <- f (V3 (r * cos phi) (r * sin phi) z);
   let th := atan2 (r * sin phi) (r * cos phi) in
   Ok (V3 (cos th * vx a + sin th * vy a) (- sin th * vx a + cos th * vy a) (vz a))).
Proof. intros L. unfold with_coordinates. rewrite L. reflexivity. Qed.
Lemma with_coordinates_cyl f c r phi z : lower c = "cylindrical"%string -> 0 < r ->
  with_coordinates f c (V3 r phi z) = rmap (cyl_components phi) (with_coordinates f "cartesian" (V3 (r * cos phi) (r * sin phi) z)).
Proof.
  intros L H. rewrite (with_coordinates_cart f "cartesian" _ eq_refl). rewrite (with_coordinates_cyl0 f c _ _ _ L).
  destruct (f _) as [a|e]; [|reflexivity]. cbn [rbind rmap]. cbv zeta.
  destruct (atan2_cos_sin r phi H) as [C S]. rewrite C, S. f_equal.
  unfold cyl_components, vdot; cbn [vx vy vz]. f_equal; ring.
Qed.
Lemma with_coordinates_axis f c phi z : lower c = "cylindrical"%string ->
  with_coordinates f c (V3 0 phi z) = with_coordinates f "cartesian" (V3 0 0 z).
Proof.
  intros L. rewrite (with_coordinates_cart f "cartesian" _ eq_refl). rewrite (with_coordinates_cyl0 f c _ _ _ L).
  replace (0 * cos phi) with 0 by ring. replace (0 * sin phi) with 0 by ring.
  destruct (f _) as [a|e]; [|reflexivity]. cbn [rbind]. cbv zeta.
  assert (A : atan2 0 0 = 0). { unfold atan2. destruct (Rlt_dec 0 0); [lra|reflexivity]. }
  rewrite A, cos_0, sin_0. destruct a as [a1 a2 a3]; cbn [vx vy vz]. do 2 f_equal; ring.
Qed.
Lemma with_coordinates_unknown f c p : lower c <> "cartesian"%string -> lower c <> "cylindrical"%string ->
  with_coordinates f c p = Raise AssertionError.
Proof. intros A B. unfold with_coordinates. apply String.eqb_neq in A, B. rewrite A, B. reflexivity. Qed.

Lemma with_loop_eq f c p : lower c = "cartesian"%string \/ lower c = "cylindrical"%string -> with_coordinates_loop f c p = with_coordinates f c p.
Proof. intros [L|L]; unfold with_coordinates_loop, with_coordinates; rewrite L; reflexivity. Qed.
Lemma with_loop_unknown f c p : lower c <> "cartesian"%string -> lower c <> "cylindrical"%string ->
  with_coordinates_loop f c p = Raise TypeError.
Proof. intros A B. unfold with_coordinates_loop. apply String.eqb_neq in A, B. rewrite A, B. reflexivity. Qed.

(** rmap commutes with the division by mu *)
Lemma cyl_vdiv phi v k : vdiv (cyl_components phi v) k = cyl_components phi (vdiv v k).
Proof. destruct v; unfold vdiv, cyl_components, vdot; cbn; f_equal; unfold Rdiv; ring. Qed.
Lemma rmap_div_cyl phi k (x : result vec3) : rmap (fun b => vdiv b k) (rmap (cyl_components phi) x) = rmap (cyl_components phi) (rmap (fun b => vdiv b k) x).
Proof. destruct x; cbn; [rewrite cyl_vdiv|]; reflexivity. Qed.

Lemma coordinates_cylindrical d l c r phi z : lower c = "cylindrical"%string -> 0 < r ->
  let there := V3 (r * cos phi) (r * sin phi) z in
  mdipole_vector_potential d c (V3 r phi z) = rmap (cyl_components phi) (mdipole_vector_potential d "cartesian" there) /\
  mdipole_flux_density d c (V3 r phi z) = rmap (cyl_components phi) (mdipole_flux_density d "cartesian" there) /\
  mdipole_field d c (V3 r phi z) = rmap (cyl_components phi) (mdipole_field d "cartesian" there) /\
  mpole_flux_density d c (V3 r phi z) = rmap (cyl_components phi) (mpole_flux_density d "cartesian" there) /\
  mpole_field d c (V3 r phi z) = rmap (cyl_components phi) (mpole_field d "cartesian" there) /\
  loop_vector_potential l c (V3 r phi z) = rmap (cyl_components phi) (loop_vector_potential l "cartesian" there) /\
  loop_flux_density l c (V3 r phi z) = rmap (cyl_components phi) (loop_flux_density l "cartesian" there) /\
  loop_field l c (V3 r phi z) = rmap (cyl_components phi) (loop_field l "cartesian" there).
Proof.
  intros L H. cbv zeta.
  unfold mdipole_field, mpole_field, loop_field, mdipole_vector_potential, mdipole_flux_density, mpole_flux_density, loop_vector_potential, loop_flux_density.
  rewrite !(with_loop_eq _ "cartesian"%string) by (left; reflexivity). rewrite !(with_loop_eq _ c) by (right; exact L).
  rewrite !(with_coordinates_cyl _ c r phi z L H), !rmap_div_cyl. repeat split.
Qed.
Lemma coordinates_axis d l c phi z : lower c = "cylindrical"%string ->
  mdipole_vector_potential d c (V3 0 phi z) = mdipole_vector_potential d "cartesian" (V3 0 0 z) /\
  mdipole_flux_density d c (V3 0 phi z) = mdipole_flux_density d "cartesian" (V3 0 0 z) /\
  mdipole_field d c (V3 0 phi z) = mdipole_field d "cartesian" (V3 0 0 z) /\
  mpole_flux_density d c (V3 0 phi z) = mpole_flux_density d "cartesian" (V3 0 0 z) /\
  mpole_field d c (V3 0 phi z) = mpole_field d "cartesian" (V3 0 0 z) /\
  loop_vector_potential l c (V3 0 phi z) = loop_vector_potential l "cartesian" (V3 0 0 z) /\
  loop_flux_density l c (V3 0 phi z) = loop_flux_density l "cartesian" (V3 0 0 z) /\
  loop_field l c (V3 0 phi z) = loop_field l "cartesian" (V3 0 0 z).
Proof.
  intros L.
  unfold mdipole_field, mpole_field, loop_field, mdipole_vector_potential, mdipole_flux_density, mpole_flux_density, loop_vector_potential, loop_flux_density.
  rewrite !(with_loop_eq _ "cartesian"%string) by (left; reflexivity). rewrite !(with_loop_eq _ c) by (right; exact L).
  rewrite !(with_coordinates_axis _ c phi z L). repeat split.
Qed.
Lemma coordinates_unknown d l c p : lower c <> "cartesian"%string -> lower c <> "cylindrical"%string ->
  mdipole_vector_potential d c p = Raise AssertionError /\ mdipole_flux_density d c p = Raise AssertionError /\
  mdipole_field d c p = Raise AssertionError /\
  mpole_flux_density d c p = Raise AssertionError /\ mpole_field d c p = Raise AssertionError /\
  loop_vector_potential l c p = Raise AssertionError /\ loop_flux_density l c p = Raise TypeError /\ loop_field l c p = Raise TypeError.
Proof.
  intros A B.
  unfold mdipole_field, mpole_field, loop_field, mdipole_vector_potential, mdipole_flux_density, mpole_flux_density, loop_vector_potential, loop_flux_density.
  rewrite !(with_coordinates_unknown _ c p A B), !(with_loop_unknown _ c p A B). repeat split.
Qed.

(** *** C44, C49: galvanic sources *)
Lemma inv_norm_grad k p0 p : p <> p0 -> is_grad (fun q => k * (1 / vnorm (vsub q p0))) p (vscal (- k) (vdiv (vsub p p0) (vnorm (vsub p p0) ^ 3))).
Proof.
  intro N. apply vsub_nz in N.
  apply (is_grad_shift (fun v => k * (1 / vnorm v))).
  destruct (vsub p p0) as [x y z].
  pose proof (norm_dx x y z N). pose proof (norm_dy x y z N). pose proof (norm_dz x y z N).
  unfold vscal, vdiv. split_grad; (eapply is_derive_eq; [der; side N|norm_field' N]).
Qed.

Lemma vall_eq_true a b : vall_eq a b = true <-> a = b.
Proof.
  unfold vall_eq. rewrite !andb_true_iff, !Reqb_true. destruct a, b; cbn. split.
  - intros [[A B] C]; subst; reflexivity.
  - intro E. apply V3_inj in E. tauto.
Qed.

Lemma vopp_vscal k v : vopp (vscal k v) = vscal (- k) v.
Proof. vring. Qed.

Lemma lc_E_grad s p : lc_sigma s <> 0 -> p <> first_node s -> p <> last_node s ->
  is_grad (lc_scalar_potential s) p (vopp (lc_electric_field s p)).
Proof.
  intros Hs N1 N2. unfold lc_scalar_potential, lc_electric_field.
  destruct (Nat.eqb (n_segments s) 0).
  - cbv zeta. rewrite vopp_vscal.
    apply (is_grad_ext (fun q => lc_current s / (4 * PI * lc_sigma s) * (1 / vnorm (vsub q (first_node s))))).
    { intro q. unfold Rdiv. rewrite (Rinv_mult (4 * PI * lc_sigma s)). ring. }
    apply inv_norm_grad; exact N1.
  - destruct (vall_eq (last_node s) (first_node s)).
    + replace (vopp vzero) with vzero by (unfold vopp, vzero; cbn; f_equal; ring). apply is_grad_const.
    + cbv zeta. set (k := lc_current s / (4 * PI * lc_sigma s)).
      apply (is_grad_ext (fun q => k * (1 / vnorm (vsub q (last_node s))) - k * (1 / vnorm (vsub q (first_node s))))).
      { intro q. ring. }
      replace (vopp _) with (vsub (vscal (- k) (vdiv (vsub p (last_node s)) (vnorm (vsub p (last_node s)) ^ 3)))
                                  (vscal (- k) (vdiv (vsub p (first_node s)) (vnorm (vsub p (first_node s)) ^ 3)))) by vring.
      apply is_grad_sub; apply inv_norm_grad; assumption.
Qed.

Lemma lc_closed s q : (2 <= List.length (lc_nodes s))%nat -> first_node s = last_node s ->
  lc_scalar_potential s q = 0 /\ lc_electric_field s q = vzero /\ lc_current_density s q = vzero.
Proof.
  intros L E. unfold lc_current_density, lc_scalar_potential, lc_electric_field.
  assert (N : Nat.eqb (n_segments s) 0 = false) by (apply Nat.eqb_neq; unfold n_segments; lia).
  assert (V : vall_eq (last_node s) (first_node s) = true) by (apply vall_eq_true; symmetry; exact E).
  rewrite N, V. repeat split. unfold vscal, vzero; cbn. f_equal; ring.
Qed.

Lemma lc_ends_only s s' q : (2 <= List.length (lc_nodes s))%nat -> (2 <= List.length (lc_nodes s'))%nat ->
  first_node s = first_node s' -> last_node s = last_node s' -> lc_current s = lc_current s' -> lc_sigma s = lc_sigma s' ->
  lc_scalar_potential s q = lc_scalar_potential s' q /\ lc_electric_field s q = lc_electric_field s' q /\ lc_current_density s q = lc_current_density s' q.
Proof.
  intros L L' F La C S. unfold lc_current_density, lc_scalar_potential, lc_electric_field.
  assert (N : Nat.eqb (n_segments s) 0 = false) by (apply Nat.eqb_neq; unfold n_segments; lia).
  assert (N' : Nat.eqb (n_segments s') 0 = false) by (apply Nat.eqb_neq; unfold n_segments; lia).
  rewrite N, N', F, La, C, S. repeat split.
Qed.

Lemma lc_open s q : (2 <= List.length (lc_nodes s))%nat -> first_node s <> last_node s -> lc_sigma s <> 0 ->
  let V n := lc_current s / (4 * PI * lc_sigma s * vnorm (vsub q n)) in
  lc_scalar_potential s q = V (last_node s) - V (first_node s).
Proof.
  intros L E Hs. cbv zeta. unfold lc_scalar_potential.
  assert (N : Nat.eqb (n_segments s) 0 = false) by (apply Nat.eqb_neq; unfold n_segments; lia).
  assert (W : vall_eq (last_node s) (first_node s) = false).
  { destruct (vall_eq _ _) eqn:Q; [|reflexivity]. apply vall_eq_true in Q. congruence. }
  rewrite N, W. unfold Rdiv. rewrite !(Rinv_mult (4 * PI * lc_sigma s)). ring.
Qed.

Lemma lc_single n I sig mu q : sig <> 0 -> q <> n ->
  let s := LC [n] I sig mu in let r := vsub q n in
  lc_scalar_potential s q = I / (4 * PI * sig * vnorm r) /\
  lc_electric_field s q = vscal (I / (4 * PI * sig * vnorm r ^ 3)) r /\
  lc_current_density s q = vscal (I / (4 * PI * vnorm r ^ 3)) r.
Proof.
  intros Hs N. apply vsub_nz in N. cbv zeta. unfold lc_current_density, lc_scalar_potential, lc_electric_field.
  cbn [n_segments lc_nodes List.length Nat.pred Nat.eqb first_node last_node hd lc_current lc_sigma].
  pose proof (vnorm_pos _ N). set (r := vnorm (vsub q n)) in *. pose proof PI_RGT_0.
  split; [reflexivity|]. destruct (vsub q n) as [x y z]. unfold vscal, vdiv; cbn [vx vy vz].
  split; f_equal; field; repeat split; lra.
Qed.

(** solid angle: an outward field k/r^2 has flux 4 pi k *)
Lemma flux_of_constant c I : 4 * PI * c = I ->
  exists inner : R -> R,
    (forall phi, is_RInt (fun theta => c * sin theta) 0 PI (inner phi)) /\ is_RInt inner 0 (2 * PI) I.
Proof.
  intro E. pose proof PI_RGT_0. exists (fun _ => 2 * c). split.
  - intro phi. replace (2 * c) with (- c * cos PI - - c * cos 0) by (rewrite cos_PI, cos_0; ring).
    apply (FTC (fun t => - c * cos t)); [lra| |].
    + intros x _. eapply is_derive_eq; [apply (D_scal (- c) cos x); apply is_derive_cos|ring].
    + intros x _. apply (ex_derive_continuous (fun t => c * sin t)). exists (c * cos x). apply D_scal. apply is_derive_sin.
  - replace I with ((2 * PI - 0) * (2 * c)) by (rewrite <- E; ring). apply (is_RInt_const 0 (2 * PI) (2 * c)).
Qed.

Lemma unit_dir_norm phi theta : vnorm (unit_dir phi theta) = 1.
Proof.
  apply vnorm_unique; [lra|]. unfold vnorm2, unit_dir; cbn. pose proof (sin2_cos2 phi) as A. pose proof (sin2_cos2 theta) as B. unfold Rsqr in *. nra.
Qed.

Lemma pc_flux rho I loc rad : rho <> 0 -> 0 < rad -> sphere_flux_is (pc_current_density (point_current rho I loc)) loc rad I.
Proof.
  intros Hr H. unfold sphere_flux_is. pose proof PI_RGT_0.
  destruct (flux_of_constant (I / (4 * PI)) I) as [g [G1 G2]]; [field; lra|].
  exists g. split; [|exact G2]. intro phi.
  eapply is_RInt_ext; [|exact (G1 phi)]. intros theta _. cbv beta.
  set (n := unit_dir phi theta).
  assert (N : vnorm n = 1) by apply unit_dir_norm.
  assert (V : vsub (vadd loc (vscal rad n)) loc = vscal rad n) by (destruct loc, n; vring).
  assert (Ne : vadd loc (vscal rad n) <> loc).
  { intro E. assert (Z : vscal rad n = vzero). { rewrite <- V, E. destruct loc; vring. }
    assert (vnorm (vscal rad n) = 0) by (rewrite Z; apply vnorm_zero).
    rewrite vnorm_scal, N, Rabs_pos_eq in H1 by lra. lra. }
  assert (Q : 1 / rho <> 0). { unfold Rdiv. rewrite Rmult_1_l. apply Rinv_neq_0_compat; exact Hr. }
  unfold pc_current_density, point_current. destruct (lc_single loc I (1 / rho) 0 _ Q Ne) as [_ [_ E]].
  rewrite E, V, vnorm_scal, N, Rabs_pos_eq by lra.
  assert (DD : vdot n n = 1). { change (vnorm2 n = 1). rewrite <- vnorm_sqr, N. ring. }
  set (k := I / (4 * PI * (rad * 1) ^ 3)).
  assert (S : vdot (vscal k (vscal rad n)) n = k * rad * vdot n n) by (destruct n; vring). rewrite S, DD. unfold k. match goal with |- ?a = ?b => change (@eq R a b) end. field. split; lra.
Qed.

Lemma pc_ohm rho I loc p : rho <> 0 -> p <> loc ->
  let s := point_current rho I loc in
  pc_potential s p = rho * I / (4 * PI * vnorm (vsub p loc)) /\
  is_grad (pc_potential s) p (vopp (pc_electric_field s p)) /\
  pc_current_density s p = vdiv (pc_electric_field s p) rho /\
  is_div (pc_electric_field s) p 0.
Proof.
  intros Hr N s.
  assert (Q : 1 / rho <> 0). { unfold Rdiv. rewrite Rmult_1_l. apply Rinv_neq_0_compat; exact Hr. }
  destruct (lc_single loc I (1 / rho) 0 p Q N) as [E1 [E2 E3]]. cbv zeta in *.
  pose proof (vnorm_pos _ (vsub_nz _ _ N)) as Hp. pose proof PI_RGT_0.
  split; [|split; [|split]].
  - unfold s, pc_potential, point_current. rewrite E1. field. repeat split; lra.
  - apply lc_E_grad; [exact Q|exact N|exact N].
  - unfold s, pc_current_density, pc_electric_field, point_current, lc_current_density. cbn [lc_sigma]. rewrite vdiv_scal.
    replace (1 / rho) with (/ rho) by (field; exact Hr). reflexivity.
  - unfold s. apply (is_div_ext (fun q => P0 I rho (vsub q loc))).
    { intro q. unfold P0, pc_electric_field, lc_electric_field, point_current. cbn [n_segments lc_nodes List.length Nat.pred Nat.eqb first_node hd lc_current lc_sigma].
      destruct (vsub q loc) as [x y z]; unfold vscal, vdiv; cbn [vx vy vz].
      destruct (Req_dec (vnorm (V3 x y z)) 0) as [Z|Z].
      - apply vnorm_eq0 in Z. unfold vzero in Z. apply V3_inj in Z. destruct Z as [Z1 [Z2 Z3]]. subst. f_equal; unfold Rdiv; ring.
      - f_equal; field; repeat split; lra. }
    apply (is_div_shift (P0 I rho)). apply pole_div. apply vsub_nz; exact N.
Qed.

(** *** C50, C51 *)
Lemma any_above_false pts : any_above pts = false <-> List.Forall (fun p => vz p <= 0) pts.
Proof.
  unfold any_above. induction pts as [|p pts IH]; cbn; [split; auto|].
  rewrite orb_false_iff, IH, Rltb_false. split; [intros [A B]; constructor; assumption|intro F; inversion F; subst; split; assumption].
Qed.
Lemma any_above_true pts : any_above pts = true <-> List.Exists (fun p => 0 < vz p) pts.
Proof.
  unfold any_above. induction pts as [|p pts IH]; cbn; [split; [easy|intro H; inversion H]|].
  rewrite orb_true_iff, IH, Rltb_true. split; [intros [A|B]; [left|right]; assumption|intro F; inversion F; subst; auto].
Qed.

Lemma hs_rejects s pts : List.Exists (fun p => 0 < vz p) pts ->
  hs_potential s pts = Raise ValueError /\ hs_electric_field s pts = Raise ValueError /\ hs_current_density s pts = Raise ValueError.
Proof. intro H. apply any_above_true in H. unfold hs_current_density, hs_potential, hs_electric_field. rewrite H. repeat split. Qed.

Lemma hs_ok s pts : List.Forall (fun p => vz p <= 0) pts ->
  hs_potential s pts = Ok (map (hs_V s) pts) /\ hs_electric_field s pts = Ok (map (hs_E s) pts) /\
  hs_current_density s pts = Ok (map (fun p => vdiv (hs_E s p) (hs_rho s)) pts).
Proof.
  intro H. apply any_above_false in H. unfold hs_current_density, hs_potential, hs_electric_field. rewrite H. repeat split.
  cbn [rmap]. rewrite map_map. reflexivity.
Qed.

Lemma mirror_neq p loc : vz p <= 0 -> vz loc <= 0 -> p <> loc -> p <> mirror loc.
Proof.
  intros A B N E. apply N. destruct loc as [a b c], p as [x y z]; unfold mirror in *; cbn in *.
  apply V3_inj in E. destruct E as [E1 [E2 E3]]. apply vec3_eq; cbn; lra.
Qed.

Lemma hs_fields s : hs_rho s <> 0 -> vz (hs_loc s) <= 0 ->
  exists (V : vec3 -> R) (E J : vec3 -> vec3),
    (forall pts, List.Forall (fun p => vz p <= 0) pts ->
       hs_potential s pts = Ok (map V pts) /\ hs_electric_field s pts = Ok (map E pts) /\ hs_current_density s pts = Ok (map J pts)) /\
    (forall p, vz p <= 0 -> p <> hs_loc s ->
       is_grad V p (vopp (E p)) /\ is_div E p 0 /\ E p = vscal (hs_rho s) (J p) /\ (vz p = 0 -> vz (J p) = 0)).
Proof.
  intros Hr Hl. exists (hs_V s), (hs_E s), (fun p => vdiv (hs_E s p) (hs_rho s)).
  split; [intros pts H; apply hs_ok; exact H|].
  intros p Hp N. pose proof (mirror_neq _ _ Hp Hl N) as N'.
  destruct (pc_ohm (hs_rho s) (hs_current s) (hs_loc s) p Hr N) as [_ [G1 [_ D1]]].
  destruct (pc_ohm (hs_rho s) (hs_current s) (mirror (hs_loc s)) p Hr N') as [_ [G2 [_ D2]]].
  split; [|split; [|split]].
  - replace (vopp (hs_E s p)) with (vadd (vopp (pc_electric_field (hs_primary s) p)) (vopp (pc_electric_field (hs_image s) p))) by (unfold hs_E; vring).
    apply is_grad_add; assumption.
  - replace 0 with (0 + 0) by ring. apply is_div_add; assumption.
  - rewrite vdiv_scal. destruct (hs_E s p); unfold vscal; cbn; f_equal; field; exact Hr.
  - intro Z. unfold hs_E, pc_electric_field, lc_electric_field, hs_primary, hs_image, point_current.
    cbn [n_segments lc_nodes List.length Nat.pred Nat.eqb first_node hd lc_current lc_sigma vdiv vadd vscal vx vy vz].
    assert (E : vnorm (vsub p (mirror (hs_loc s))) = vnorm (vsub p (hs_loc s))).
    { unfold vnorm. f_equal. destruct p as [x y z], (hs_loc s) as [a b c]; cbn in Z; subst z. unfold mirror; vring. }
    rewrite E. destruct p as [x y z], (hs_loc s) as [a b c]; cbn in Z; subst z. unfold mirror, vsub; cbn [vx vy vz].
    unfold Rdiv; ring.
Qed.

Lemma V_pair_sym rho I m a : hs_V (HS rho I a) m = hs_V (HS rho I m) a.
Proof.
  unfold hs_V, pc_potential, lc_scalar_potential, hs_primary, hs_image, point_current.
  cbn [n_segments lc_nodes List.length Nat.pred Nat.eqb first_node hd lc_current lc_sigma hs_rho hs_current hs_loc].
  rewrite (vnorm_sub_sym m a).
  replace (vnorm (vsub m (mirror a))) with (vnorm (vsub a (mirror m))); [reflexivity|].
  unfold vnorm; f_equal. destruct m, a; unfold mirror; vring.
Qed.

Lemma Forall_one {A} (P : A -> Prop) x : P x -> List.Forall P [x].
Proof. intro H; constructor; [exact H|constructor]. Qed.

Lemma dh_value s m n : vz m <= 0 -> vz n <= 0 ->
  dh_potential s [m] (Some [n]) = Ok [hs_V (dh_sa s) m - hs_V (dh_sb s) m - (hs_V (dh_sa s) n - hs_V (dh_sb s) n)] /\
  dh_potential s [m] None = Ok [hs_V (dh_sa s) m - hs_V (dh_sb s) m].
Proof.
  intros Hm Hn. unfold dh_potential.
  assert (A : any_above [m] = false) by (apply any_above_false; apply Forall_one; exact Hm).
  assert (B : any_above [n] = false) by (apply any_above_false; apply Forall_one; exact Hn).
  unfold hs_potential. rewrite A, B. split; reflexivity.
Qed.

Lemma dh_reciprocity rho I a b m n : vz a <= 0 -> vz b <= 0 -> vz m <= 0 -> vz n <= 0 ->
  exists v, dh_potential (DHS rho I a b) [m] (Some [n]) = Ok [v] /\
    dh_potential (DHS rho I m n) [a] (Some [b]) = Ok [v] /\
    dh_potential (DHS rho I b a) [m] (Some [n]) = Ok [- v] /\
    dh_potential (DHS rho I a b) [n] (Some [m]) = Ok [- v].
Proof.
  intros Ha Hb Hm Hn.
  set (f x y := hs_V (HS rho I x) y).
  exists (f a m - f b m - (f a n - f b n)).
  rewrite (proj1 (dh_value (DHS rho I a b) m n Hm Hn)), (proj1 (dh_value (DHS rho I m n) a b Ha Hb)),
    (proj1 (dh_value (DHS rho I b a) m n Hm Hn)), (proj1 (dh_value (DHS rho I a b) n m Hn Hm)).
  cbn [dh_sa dh_sb dh_rho dh_current dh_a dh_b]. fold (f a m) (f b m) (f a n) (f b n).
  unfold dh_sa, dh_sb; cbn [dh_rho dh_current dh_a dh_b].
  rewrite (V_pair_sym rho I a m), (V_pair_sym rho I b m), (V_pair_sym rho I a n), (V_pair_sym rho I b n).
  fold (f a m) (f b m) (f a n) (f b n).
  repeat split; do 2 f_equal; ring.
Qed.

Lemma map_combine_diff {A B C} (f g : A -> B) (sub : B -> B -> C) (l : list A) :
  map (fun ab => sub (fst ab) (snd ab)) (combine (map f l) (map g l)) = map (fun x => sub (f x) (g x)) l.
Proof. induction l; cbn; [reflexivity|f_equal; assumption]. Qed.

Lemma dh_grid s ms : List.Forall (fun p => vz p <= 0) ms ->
  dh_potential s ms None = Ok (map (fun m => hs_V (dh_sa s) m - hs_V (dh_sb s) m) ms) /\
  dh_electric_field s ms None = Ok (map (fun m => vsub (hs_E (dh_sa s) m) (hs_E (dh_sb s) m)) ms).
Proof.
  intro Hm. unfold dh_potential, dh_electric_field, hs_potential, hs_electric_field.
  rewrite (proj2 (any_above_false _) Hm). cbn [rbind]. unfold zip_sub, zip_vsub.
  rewrite (map_combine_diff _ _ Rminus), (map_combine_diff _ _ vsub). split; reflexivity.
Qed.
Lemma dh_grid2 s ms ns : List.Forall (fun p => vz p <= 0) ms -> List.Forall (fun p => vz p <= 0) ns ->
  (exists vm vn, dh_potential s ms None = Ok vm /\ dh_potential s ns None = Ok vn /\ dh_potential s ms (Some ns) = Ok (zip_sub vm vn)) /\
  (exists em en, dh_electric_field s ms None = Ok em /\ dh_electric_field s ns None = Ok en /\ dh_electric_field s ms (Some ns) = Ok (zip_vsub em en)).
Proof.
  intros Hm Hn. unfold dh_potential, dh_electric_field, hs_potential, hs_electric_field.
  rewrite (proj2 (any_above_false _) Hm), (proj2 (any_above_false _) Hn). cbn [rbind].
  split; do 2 eexists; repeat split.
Qed.
Lemma dh_rejects s ms no : List.Exists (fun p => 0 < vz p) ms \/ (exists ns, no = Some ns /\ List.Exists (fun p => 0 < vz p) ns) ->
  dh_potential s ms no = Raise ValueError /\ dh_electric_field s ms no = Raise ValueError /\ dh_current_density s ms no = Raise ValueError.
Proof.
  intro H. unfold dh_current_density, dh_potential, dh_electric_field.
  destruct (any_above ms) eqn:A; [repeat split|].
  destruct H as [H|[ns [E H]]].
  - apply any_above_true in H. congruence.
  - subst no. apply any_above_true in H. rewrite H. repeat split.
Qed.

Lemma dh_fields s : dh_rho s <> 0 -> vz (dh_a s) <= 0 -> vz (dh_b s) <= 0 ->
  exists (V : vec3 -> R) (E J : vec3 -> vec3),
    (forall pts, List.Forall (fun p => vz p <= 0) pts ->
       dh_potential s pts None = Ok (map V pts) /\ dh_electric_field s pts None = Ok (map E pts) /\
       dh_current_density s pts None = Ok (map J pts)) /\
    (forall p, vz p <= 0 -> p <> dh_a s -> p <> dh_b s ->
       is_grad V p (vopp (E p)) /\ E p = vscal (dh_rho s) (J p) /\ (vz p = 0 -> vz (J p) = 0)).
Proof.
  intros Hr Ha Hb.
  exists (fun p => hs_V (dh_sa s) p - hs_V (dh_sb s) p), (fun p => vsub (hs_E (dh_sa s) p) (hs_E (dh_sb s) p)),
    (fun p => vdiv (vsub (hs_E (dh_sa s) p) (hs_E (dh_sb s) p)) (dh_rho s)).
  split.
  - intros pts H. destruct (dh_grid s pts H) as [A B]. unfold dh_current_density. rewrite B. repeat split; [exact A|].
    cbn [rmap]. rewrite map_map. reflexivity.
  - intros p Hp Na Nb.
    destruct (hs_fields (dh_sa s) Hr Ha) as [V1 [E1 [J1 [O1 P1]]]]. destruct (hs_fields (dh_sb s) Hr Hb) as [V2 [E2 [J2 [O2 P2]]]].
    assert (EA : hs_E (dh_sa s) p = E1 p /\ vdiv (hs_E (dh_sa s) p) (dh_rho s) = J1 p).
    { destruct (O1 [p]) as [_ [X Y]]; [apply Forall_one; exact Hp|]. destruct (hs_ok (dh_sa s) [p]) as [_ [X' Y']]; [apply Forall_one; exact Hp|].
      rewrite X in X'. rewrite Y in Y'. cbn in X', Y'. injection X' as X'. injection Y' as Y'. split; [symmetry; assumption|symmetry; exact Y']. }
    assert (EB : hs_E (dh_sb s) p = E2 p /\ vdiv (hs_E (dh_sb s) p) (dh_rho s) = J2 p).
    { destruct (O2 [p]) as [_ [X Y]]; [apply Forall_one; exact Hp|]. destruct (hs_ok (dh_sb s) [p]) as [_ [X' Y']]; [apply Forall_one; exact Hp|].
      rewrite X in X'. rewrite Y in Y'. cbn in X', Y'. injection X' as X'. injection Y' as Y'. split; [symmetry; assumption|symmetry; exact Y']. }
    destruct EA as [EA JA], EB as [EB JB].
    destruct (P1 p Hp Na) as [_ [_ [_ Z1]]]. destruct (P2 p Hp Nb) as [_ [_ [_ Z2]]].
    split; [|split].
    + pose proof (mirror_neq _ _ Hp Ha Na) as Na'. pose proof (mirror_neq _ _ Hp Hb Nb) as Nb'.
      destruct (pc_ohm (dh_rho s) (dh_current s) (dh_a s) p Hr Na) as [_ [G1 _]].
      destruct (pc_ohm (dh_rho s) (dh_current s) (mirror (dh_a s)) p Hr Na') as [_ [G2 _]].
      destruct (pc_ohm (dh_rho s) (dh_current s) (dh_b s) p Hr Nb) as [_ [G3 _]].
      destruct (pc_ohm (dh_rho s) (dh_current s) (mirror (dh_b s)) p Hr Nb') as [_ [G4 _]].
      pose proof (is_grad_sub _ _ _ _ _ (is_grad_add _ _ _ _ _ G1 G2) (is_grad_add _ _ _ _ _ G3 G4)) as K.
      unfold hs_V. match type of K with is_grad _ _ ?g => replace (vopp _) with g end; [exact K|]. unfold hs_E, hs_primary, hs_image, dh_sa, dh_sb; cbn [hs_rho hs_current hs_loc]. vring.
    + rewrite vdiv_scal. destruct (vsub _ _); unfold vscal; cbn; f_equal; field; exact Hr.
    + intro Z. specialize (Z1 Z). specialize (Z2 Z). rewrite <- JA in Z1. rewrite <- JB in Z2. unfold vdiv, vsub in *; cbn [vx vy vz] in *.
      unfold Rdiv in *. rewrite Rmult_minus_distr_r, Z1, Z2. ring.
Qed.
