(** Horizontal rigid motions of the half-space sources. *)
From Coq Require Import Reals Lra Lia List String.
From Coquelicot Require Import Coquelicot.
From Verif Require Import Vec3 Numpy Model_Spatial Model_Static Model_TDEM Spec_Static Spec_Symmetry Proof_Loop2 Proof_Symmetry.
Import ListNotations.
Open Scope R_scope.

Section Horizontal.
Variables (m : mat3) (t : vec3).
Hypothesis H : is_horizontal m t.
Local Notation g := (move m t).
Lemma hor_iso : is_isometry m. Proof. apply H. Qed.
Lemma hor_up : m2 m = V3 0 0 1.
Proof.
  destruct H as ([A _] & E & _). assert (F : mvec (mtrans m) (V3 0 0 1) = V3 0 0 1).
  { rewrite <- E at 1. apply iso_forth, hor_iso. }
  destruct m as [[] [] [x y z]]. unfold mvec, mtrans, vdot in F. cbn in F. apply V3_inj in F. cbn. f_equal; lra.
Qed.
Lemma hor_z v : vz (mvec m v) = vz v.
Proof. unfold mvec. cbn. rewrite hor_up. unfold vdot. cbn. ring. Qed.
Lemma hor_col : vz (m0 m) = 0 /\ vz (m1 m) = 0.
Proof. destruct H as (_ & E & _). unfold mvec, vdot in E. cbn in E. apply V3_inj in E. lra. Qed.
Lemma move_z p : vz (g p) = vz p.
Proof. unfold move, vadd. cbn [vz]. rewrite hor_z. destruct H as (_ & _ & E). rewrite E. ring. Qed.
Lemma mirror_mvec v : mirror (mvec m v) = mvec m (mirror v).
Proof.
  destruct hor_col as [C D]. pose proof hor_up as U. destruct m as [[] [] []], v. cbn in C, D, U. injection U as -> -> ->. subst.
  unfold mirror. vring.
Qed.
Lemma mirror_move p : mirror (g p) = g (mirror p).
Proof.
  unfold move. transitivity (vadd (mirror (mvec m p)) (mirror t)).
  - destruct (mvec m p), t. unfold mirror. vring.
  - rewrite mirror_mvec. f_equal. destruct H as (_ & _ & E). destruct t as [a b c]. cbn in E. subst. unfold mirror. cbn. f_equal. ring.
Qed.
Lemma any_above_move pts : any_above (map g pts) = any_above pts.
Proof. unfold any_above. induction pts as [|p l IH]; [reflexivity|]. cbn [map existsb]. rewrite move_z. now rewrite IH. Qed.

Lemma hs_V_move rho I c p : hs_V (HS rho I (g c)) (g p) = hs_V (HS rho I c) p.
Proof.
  unfold hs_V, pc_potential, hs_primary, hs_image, point_current. cbn [hs_rho hs_current hs_loc]. rewrite mirror_move.
  destruct (wire_electric m t hor_iso [c] I (1 / rho) 0 p ltac:(discriminate)) as (A & _).
  destruct (wire_electric m t hor_iso [mirror c] I (1 / rho) 0 p ltac:(discriminate)) as (B & _). cbn [map] in A, B. now rewrite A, B.
Qed.
Lemma hs_E_move rho I c p : hs_E (HS rho I (g c)) (g p) = polar m (hs_E (HS rho I c) p).
Proof.
  unfold hs_E, pc_electric_field, hs_primary, hs_image, point_current. cbn [hs_rho hs_current hs_loc]. rewrite mirror_move.
  destruct (wire_electric m t hor_iso [c] I (1 / rho) 0 p ltac:(discriminate)) as (_ & A & _).
  destruct (wire_electric m t hor_iso [mirror c] I (1 / rho) 0 p ltac:(discriminate)) as (_ & B & _). cbn [map] in A, B. rewrite A, B.
  unfold polar. now rewrite mvec_add.
Qed.
Lemma hs_covariant rho I c xyz :
  let s := HS rho I c in let s' := HS rho I (g c) in let xyz' := map g xyz in
  hs_potential s' xyz' = hs_potential s xyz /\
  hs_electric_field s' xyz' = rmap (map (polar m)) (hs_electric_field s xyz) /\
  hs_current_density s' xyz' = rmap (map (polar m)) (hs_current_density s xyz).
Proof.
  cbv zeta.
  assert (E : hs_electric_field (HS rho I (g c)) (map g xyz) = rmap (map (polar m)) (hs_electric_field (HS rho I c) xyz)).
  { unfold hs_electric_field. rewrite any_above_move. destruct (any_above xyz); [reflexivity|]. cbn. f_equal. rewrite !map_map. apply map_ext. intros; apply hs_E_move. }
  split; [|split; [exact E|]].
  - unfold hs_potential. rewrite any_above_move. destruct (any_above xyz); [reflexivity|]. f_equal. rewrite !map_map. apply map_ext. intros; apply hs_V_move.
  - unfold hs_current_density. rewrite E. destruct (hs_electric_field (HS rho I c) xyz); [|reflexivity]. cbn. f_equal. rewrite !map_map. apply map_ext. intros. unfold polar. now rewrite mvec_div.
Qed.
Lemma zip_vsub_map u v : zip_vsub (map (polar m) u) (map (polar m) v) = map (polar m) (zip_vsub u v).
Proof. unfold zip_vsub. revert v. induction u as [|a u IH]; intros [|b v]; try reflexivity. cbn. rewrite IH. f_equal. unfold polar. now rewrite mvec_sub. Qed.
Lemma dh_covariant rho I a b xyz_m xyz_n :
  let s := DHS rho I a b in let s' := DHS rho I (g a) (g b) in
  dh_potential s' (map g xyz_m) (option_map (map g) xyz_n) = dh_potential s xyz_m xyz_n /\
  dh_electric_field s' (map g xyz_m) (option_map (map g) xyz_n) = rmap (map (polar m)) (dh_electric_field s xyz_m xyz_n) /\
  dh_current_density s' (map g xyz_m) (option_map (map g) xyz_n) = rmap (map (polar m)) (dh_current_density s xyz_m xyz_n).
Proof.
  cbv zeta.
  assert (E : dh_electric_field (DHS rho I (g a) (g b)) (map g xyz_m) (option_map (map g) xyz_n) = rmap (map (polar m)) (dh_electric_field (DHS rho I a b) xyz_m xyz_n)).
  { unfold dh_electric_field, dh_sa, dh_sb. cbn [dh_rho dh_current dh_a dh_b]. rewrite any_above_move. destruct (any_above xyz_m) eqn:A; [reflexivity|].
    destruct xyz_n as [n|]; cbn [option_map].
    - rewrite any_above_move. destruct (any_above n) eqn:A'; [reflexivity|].
      rewrite !(proj1 (proj2 (hs_covariant _ _ _ _))). unfold hs_electric_field. rewrite A, A'. cbn [rbind rmap]. rewrite !zip_vsub_map. reflexivity.
    - rewrite !(proj1 (proj2 (hs_covariant _ _ _ _))). unfold hs_electric_field. rewrite A. cbn [rbind rmap]. rewrite !zip_vsub_map. reflexivity. }
  split; [|split; [exact E|]].
  - unfold dh_potential, dh_sa, dh_sb. cbn [dh_rho dh_current dh_a dh_b]. rewrite any_above_move. destruct (any_above xyz_m) eqn:A; [reflexivity|].
    destruct xyz_n as [n|]; cbn [option_map]; rewrite ?any_above_move, ?(proj1 (hs_covariant _ _ _ _)); reflexivity.
  - unfold dh_current_density. rewrite E. destruct (dh_electric_field (DHS rho I a b) xyz_m xyz_n); [|reflexivity]. cbn. f_equal. rewrite !map_map. apply map_ext. intros. unfold polar. now rewrite mvec_div.
Qed.

(** the transient vertical dipole *)
Definition vring_field (hr hz : R -> R) (x y : R) : vec3 :=
  let r := sqrt (x ^ 2 + y ^ 2) in V3 (cos (atan2 y x) * hr r) (sin (atan2 y x) * hr r) (hz r).
Lemma vring_move hr hz p c : let d := vsub p c in let d' := vsub (g p) (g c) in 0 < vx d ^ 2 + vy d ^ 2 ->
  vring_field hr hz (vx d') (vy d') = mvec m (vring_field hr hz (vx d) (vy d)).
Proof.
  cbv zeta. rewrite move_sub. generalize (vsub p c). intros d Q.
  assert (N : vx (mvec m d) ^ 2 + vy (mvec m d) ^ 2 = vx d ^ 2 + vy d ^ 2).
  { pose proof (iso_dot m d d hor_iso) as E. unfold vdot in E. rewrite hor_z in E. nra. }
  unfold vring_field. destruct (atan2_dir _ _ Q) as [C S]. assert (Q' : 0 < vx (mvec m d) ^ 2 + vy (mvec m d) ^ 2) by lra.
  destruct (atan2_dir _ _ Q') as [C' S']. rewrite C, S, C', S'. unfold hyp2. rewrite N.
  set (r := sqrt (vx d ^ 2 + vy d ^ 2)). assert (P : 0 < r) by (apply sqrt_lt_R0; exact Q).
  destruct hor_col as [K L]. pose proof hor_up as U. generalize (hr r) (hz r). intros u v. clearbody r. clear - K L U P.
  destruct m as [[] [] []], d. cbn in K, L, U. injection U as -> -> ->. subst. unfold mvec, vdot. cbn. apply vec3_eq; cbn; field; lra.
Qed.
Lemma tv_covariant med mom c p : let d := vsub p c in 0 < vx d ^ 2 + vy d ^ 2 ->
  let s := TV med mom c in let s' := TV med (mdet m * mom) (g c) in let row q := [vx q; vy q; vz q] in
  tv_H s' (row (g p)) = rmap (axial m) (tv_H s (row p)) /\ tv_dH s' (row (g p)) = rmap (axial m) (tv_dH s (row p)) /\
  tv_B s' (row (g p)) = rmap (axial m) (tv_B s (row p)) /\ tv_dB s' (row (g p)) = rmap (axial m) (tv_dB s (row p)).
Proof.
  intros d Q. cbv zeta. unfold tv_B, tv_dB, tv_H, tv_dH, tv_call. cbn [tv_med tv_loc tv_moment].
  change (vx (g p) - vx (g c)) with (vx (vsub (g p) (g c))). change (vy (g p) - vy (g c)) with (vy (vsub (g p) (g c))).
  change (vx p - vx c) with (vx (vsub p c)). change (vy p - vy c) with (vy (vsub p c)).
  assert (A : forall f hr hz, (forall k x y, f k x y = vscal (k / (4 * PI)) (vring_field hr hz x y)) ->
     f (mdet m * mom) (vx (vsub (g p) (g c))) (vy (vsub (g p) (g c))) = axial m (f mom (vx (vsub p c)) (vy (vsub p c)))).
  { intros f hr hz E. rewrite !E, vring_move by exact Q. rewrite axial_scal. unfold axial, Rdiv.
    destruct (mvec m (vring_field hr hz (vx (vsub p c)) (vy (vsub p c)))). vring. }
  assert (B1 : vmd_H (td_time med) (td_sigma med) (td_mu med) (mdet m * mom) (vx (vsub (g p) (g c))) (vy (vsub (g p) (g c))) =
     axial m (vmd_H (td_time med) (td_sigma med) (td_mu med) mom (vx (vsub p c)) (vy (vsub p c)))).
  { apply (A (fun k x y => vmd_H (td_time med) (td_sigma med) (td_mu med) k x y)
     (fun r => let thr := theta (td_time med) (td_sigma med) (td_mu med) * r in 2 * thr ^ 2 / r ^ 3 * (ive 1 (thr ^ 2 / 2) - ive 2 (thr ^ 2 / 2)))
     (fun r => let thr := theta (td_time med) (td_sigma med) (td_mu med) * r in 1 / r ^ 3 * ((9 / (2 * thr ^ 2) - 1) * erf thr - (9 / thr + 4 * thr) / sqrt PI * exp (- thr ^ 2)))). intros. unfold vmd_H, vring_field. cbv zeta.
    reflexivity. }
  assert (B2 : vmd_dH (td_time med) (td_sigma med) (td_mu med) (mdet m * mom) (vx (vsub (g p) (g c))) (vy (vsub (g p) (g c))) =
     axial m (vmd_dH (td_time med) (td_sigma med) (td_mu med) mom (vx (vsub p c)) (vy (vsub p c)))).
  { apply (A (fun k x y => vmd_dH (td_time med) (td_sigma med) (td_mu med) k x y)
     (fun r => let tr := theta (td_time med) (td_sigma med) (td_mu med) * r in -2 * tr ^ 2 / (r ^ 3 * td_time med) * ((1 + tr ^ 2) * ive 0 (tr ^ 2 / 2) - (2 + tr ^ 2 + 4 / tr ^ 2) * ive 1 (tr ^ 2 / 2)))
     (fun r => let tr := theta (td_time med) (td_sigma med) (td_mu med) * r in 1 / (r ^ 3 * td_time med) * (9 / (2 * tr ^ 2) * erf tr - (4 * tr ^ 3 + 6 * tr + 9 / tr) / sqrt PI * exp (- tr ^ 2)))). intros. unfold vmd_dH, vring_field. cbv zeta.
    reflexivity. }
  cbn [rmap]. rewrite B1, B2, !axial_scal. repeat split.
Qed.
End Horizontal.
