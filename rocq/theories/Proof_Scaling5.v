(** Similitude: layered half-space. *)
From Coq Require Import Reals Lra Lia String List Bool Arith FunctionalExtensionality.
From Coquelicot Require Import Coquelicot.
From Verif Require Import Vec3 Cplx Numpy Model_RTE Model_Layered Model_Static Spec_Scaling Proof_FDEM Proof_Scaling Proof_Scaling3.
Import ListNotations.
Open Scope R_scope.

Section Scale.
Variables a s : R.
Hypothesis A : 0 < a.
Hypothesis S0 : 0 < s.
(** frequency f / (a^2 s), conductivities times s, lengths times a *)
Notation fr f := (f / (a ^ 2 * s)).
Let RA : RtoC a <> 0%C. Proof. apply RtoC_neq; lra. Qed.
Let RS : RtoC s <> 0%C. Proof. apply RtoC_neq; lra. Qed.

Lemma map2_map_l {X Y Z W} (f : Y -> Z -> W) (g : X -> Y) : forall l m, map2 f (map g l) m = map2 (fun x z => f (g x) z) l m.
Proof. unfold map2. induction l as [|x l IH]; intros [|y m]; try reflexivity. cbn. f_equal. apply IH. Qed.
Lemma map2_map_r {X Y Z W} (f : Z -> Y -> W) (g : X -> Y) : forall m l, map2 f m (map g l) = map2 (fun z x => f z (g x)) m l.
Proof. unfold map2. induction m as [|x m IH]; intros [|y l]; try reflexivity. cbn. f_equal. apply IH. Qed.
Lemma map_map2 {X Y Z W} (f : Z -> W) (g : X -> Y -> Z) : forall l m, map f (map2 g l m) = map2 (fun x y => f (g x y)) l m.
Proof. unfold map2. intros. now rewrite map_map. Qed.
Lemma map2_ext' {X Y Z} (f g : X -> Y -> Z) l m : (forall x y, f x y = g x y) -> map2 f l m = map2 g l m.
Proof. intros E. unfold map2. apply map_ext. intros [x y]. apply E. Qed.

Lemma omega_fr f : py_omega (fr f) = py_omega f / (a ^ 2 * s).
Proof. unfold py_omega. unfold Rdiv. ring. Qed.
Lemma u_scale w la sg mu : py_u (w / (a ^ 2 * s)) (la / a) (map (Cmult (RtoC s)) sg) mu = map (Cmult (RtoC (/ a))) (py_u w la sg mu).
Proof.
  unfold py_u, py_k2. rewrite !map_map2, map2_map_r. apply map2_ext'. intros m c. rewrite map_id || idtac.
  rewrite <- csqrt_scale by (apply Rinv_0_lt_compat; exact A). f_equal.
  replace (RtoC ((/ a) ^ 2)) with (/ RtoC a * / RtoC a)%C by (cbn [pow]; rewrite !RtoC_mult, RtoC_inv by lra; ring).
  replace (RtoC ((la / a) ^ 2)) with (/ RtoC a * / RtoC a * RtoC (la ^ 2))%C by (unfold Rdiv; rewrite <- RtoC_inv, <- !RtoC_mult by lra; f_equal; ring).
  replace (RtoC (w / (a ^ 2 * s))) with (RtoC w * / RtoC a * / RtoC a * / RtoC s)%C by (rewrite <- !RtoC_inv, <- !RtoC_mult by lra; f_equal; field; split; lra).
  field. split; assumption.
Qed.
Lemma Y_scale w la sg mu : py_Y (w / (a ^ 2 * s)) (la / a) (map (Cmult (RtoC s)) sg) mu = map (Cmult (RtoC (a * s))) (py_Y w la sg mu).
Proof.
  unfold py_Y. rewrite u_scale, map2_map_l, map_map2. apply map2_ext'. intros u m. unfold Cdiv.
  replace (Ci * RtoC (w / (a ^ 2 * s)) * m)%C with (/ (RtoC a * RtoC a * RtoC s) * (Ci * RtoC w * m))%C
    by (replace (RtoC (w / (a ^ 2 * s))) with (RtoC w * / RtoC a * / RtoC a * / RtoC s)%C by (rewrite <- !RtoC_inv, <- !RtoC_mult by lra; f_equal; field; split; lra); field; split; assumption).
  rewrite Cinv_mult', RtoC_inv, RtoC_mult by lra. generalize (/ (Ci * RtoC w * m))%C. intros q. field. repeat split; try assumption. exact (RtoC_neq 1 R1_neq_R0).
Qed.
Lemma removelast_map' {X Y} (f : X -> Y) : forall l, removelast (map f l) = map f (removelast l).
Proof. induction l as [|x [|y l] IH]; try reflexivity. cbn [map removelast] in *. now rewrite IH. Qed.
Lemma tanh_scale w la sg mu h : py_tanh (w / (a ^ 2 * s)) (la / a) (map (Cmult (RtoC s)) sg) mu (map (Rmult a) h) = py_tanh w la sg mu h.
Proof.
  unfold py_tanh. rewrite u_scale, removelast_map', map2_map_l, map2_map_r. apply map2_ext'. intros u x. f_equal. rewrite RtoC_mult, RtoC_inv by lra. field. exact RA.
Qed.
Lemma cget_map k l i : cget (map (Cmult k) l) i = (k * cget l i)%C.
Proof. unfold cget. rewrite <- (map_nth (Cmult k) l (RtoC 0) i). f_equal. ring. Qed.
Lemma frac_c (c x y : C) : c <> 0%C -> (c * x / (c * y) = x / y)%C.
Proof. intros H. unfold Cdiv. rewrite Cinv_mult'. generalize (/ y)%C. intros q. field. exact H. Qed.
Lemma down_scale (c : C) Y t : c <> 0%C -> forall k Yh, py_down (map (Cmult c) Y) t k (c * Yh)%C = (c * py_down Y t k Yh)%C.
Proof.
  intros H. induction k as [|k IH]; intros Yh; [reflexivity|]. cbn [py_down]. rewrite !cget_map.
  rewrite <- IH. f_equal. unfold Cdiv.
  replace (c * cget Y k + c * Yh * cget t k)%C with (c * (cget Y k + Yh * cget t k))%C by ring. rewrite Cinv_mult'. generalize (/ (cget Y k + Yh * cget t k))%C. intros q. field. exact H.
Qed.
Lemma last_map_c c l : last (map (Cmult c) l) (RtoC 0) = (c * last l (RtoC 0))%C.
Proof. induction l as [|x [|y l] IH]; [cbn; ring|reflexivity|]. cbn [map last] in *. exact IH. Qed.
Lemma rTE_scale mu_0 f la sg mu h :
  py_rTE mu_0 (fr f) (la / a) (map (Cmult (RtoC s)) sg) mu (map (Rmult a) h) = py_rTE mu_0 f la sg mu h.
Proof.
  unfold py_rTE. rewrite omega_fr, map_length, Y_scale, tanh_scale, last_map_c.
  assert (H : RtoC (a * s) <> 0%C) by (apply RtoC_neq; apply Rgt_not_eq, Rmult_lt_0_compat; assumption). rewrite down_scale by exact H.
  generalize (py_down (py_Y (py_omega f) la sg mu) (py_tanh (py_omega f) la sg mu h) (length h + 1 - 1) (last (py_Y (py_omega f) la sg mu) (RtoC 0))). intros Yh.
  replace (RtoC (la / a) / (Ci * RtoC (py_omega f / (a ^ 2 * s)) * RtoC mu_0))%C with (RtoC (a * s) * (RtoC la / (Ci * RtoC (py_omega f) * RtoC mu_0)))%C.
  - generalize (RtoC la / (Ci * RtoC (py_omega f) * RtoC mu_0))%C. intros Y0.
    replace (RtoC (a * s) * Y0 - RtoC (a * s) * Yh)%C with (RtoC (a * s) * (Y0 - Yh))%C by ring. replace (RtoC (a * s) * Y0 + RtoC (a * s) * Yh)%C with (RtoC (a * s) * (Y0 + Yh))%C by ring. now apply frac_c.
  - unfold Cdiv. replace (RtoC (py_omega f / (a ^ 2 * s))) with (/ (RtoC a * RtoC a * RtoC s) * RtoC (py_omega f))%C by (rewrite <- !RtoC_mult, <- RtoC_inv, <- RtoC_mult by (apply Rgt_not_eq; repeat apply Rmult_lt_0_compat; assumption); f_equal; field; split; lra).
    replace (Ci * (/ (RtoC a * RtoC a * RtoC s) * RtoC (py_omega f)) * RtoC mu_0)%C with (/ (RtoC a * RtoC a * RtoC s) * (Ci * RtoC (py_omega f) * RtoC mu_0))%C by ring.
    rewrite (Cinv_mult' (/ (RtoC a * RtoC a * RtoC s))%C), RtoC_mult. unfold Rdiv. rewrite (RtoC_mult la), RtoC_inv by lra. generalize (/ (Ci * RtoC (py_omega f) * RtoC mu_0))%C. intros q. field. repeat split; try assumption; exact (RtoC_neq 1 R1_neq_R0).
Qed.

(** the magnetic field of the dipole *)
Notation scale_parr := (scale_parr s).
Notation scale_layered := (scale_layered a s).
Definition scale_arr (m : arr2) : arr2 := A2 (a_rows m) (a_cols m) (fun i j => RtoC s * a_at m i j)%C.

Lemma as_array_scale nl nf p : as_array nl nf (scale_parr p) = rmap scale_arr (as_array nl nf p).
Proof.
  destruct p as [l|m]; cbn [Spec_Scaling.scale_parr as_array].
  - rewrite map_length. destruct (Nat.eqb _ _); [|reflexivity]. cbn [rmap rbind]. unfold scale_arr. cbn. do 2 f_equal. extensionality i. extensionality j. apply cget_map.
  - reflexivity.
Qed.
Lemma rget_map (g : R -> R) l i : g 0 = 0 -> rget (map g l) i = g (rget l i).
Proof. intros G. unfold rget. rewrite <- G at 1. apply map_nth. Qed.
Lemma sigh_scale nl nf fl sg e qs : qs = true \/ s = / a ->
  sigma_hat_fn (A2 nl nf (fun _ j => RtoC (rget (map (fun f => f / (a ^ 2 * s)) fl) j))) (scale_arr sg) e qs =
  rmap scale_arr (sigma_hat_fn (A2 nl nf (fun _ j => RtoC (rget fl j))) sg e qs).
Proof.
  intros H. unfold sigma_hat_fn. destruct qs; [reflexivity|]. destruct H as [H|H]; [discriminate|].
  unfold broadcast. cbn [a_rows a_cols a_at scale_arr]. destruct (bdim nl (a_rows e)) as [r1|]; [|reflexivity]. destruct (bdim nf (a_cols e)) as [c1|]; [|reflexivity]. cbn [rbind a_rows a_cols a_at].
  destruct (bdim (a_rows sg) r1) as [r2|]; [|reflexivity]. destruct (bdim (a_cols sg) c1) as [c2|]; [|reflexivity]. cbn [rmap rbind]. unfold scale_arr. cbn [a_rows a_cols a_at]. f_equal. f_equal.
  extensionality i. extensionality j. rewrite rget_map by (unfold Rdiv; ring).
  generalize (rget fl (bidx nf (bidx c1 j))) (a_at sg (bidx (a_rows sg) i) (bidx (a_cols sg) j)) (a_at e (bidx (a_rows e) (bidx r1 i)) (bidx (a_cols e) (bidx c1 j))). intros f c ep.
  replace (RtoC (f / (a ^ 2 * s))) with (RtoC s * RtoC f)%C; [ring|]. rewrite <- RtoC_mult. f_equal. rewrite H. field. lra.
Qed.
Lemma column_scale m j : column (scale_arr m) j = map (Cmult (RtoC s)) (column m j).
Proof. unfold column, scale_arr. cbn [a_rows a_at]. now rewrite map_map. Qed.
Lemma forward_scale mu_0 fl la sg mu h :
  rTE_forward mu_0 (map (fun f => f / (a ^ 2 * s)) fl) (map (fun l => l / a) la) (scale_arr sg) mu (map (Rmult a) h) = rTE_forward mu_0 fl la sg mu h.
Proof.
  unfold rTE_forward. rewrite !map_length. cbn [scale_arr a_rows a_cols].
  repeat match goal with |- (if ?b then _ else _) = (if ?b then _ else _) => destruct b; [reflexivity|] end.
  f_equal. unfold py_rTE_forward. rewrite !map_length. apply map_ext. intros f. apply map_ext. intros i. fold (scale_arr sg). rewrite column_scale, !rget_map by (unfold Rdiv; ring). apply rTE_scale.
Qed.
Lemma when_nz_scale k o v w : v = k * w -> when_nz o v = k * when_nz o w.
Proof. intros ->. unfold when_nz. destruct (Req_EM_T o 0); ring. Qed.
Lemma offset_scale l p : offset (vscal a l) (vscal a p) = a * offset l p.
Proof.
  unfold offset. replace ((vx (vscal a p) - vx (vscal a l)) ^ 2 + (vy (vscal a p) - vy (vscal a l)) ^ 2) with (a ^ 2 * ((vx p - vx l) ^ 2 + (vy p - vy l) ^ 2)) by (vunf; ring).
  rewrite sqrt_mult_alt, sqrt_pow2 by (try apply pow_le; lra). reflexivity.
Qed.
Lemma cdotr_scale k : forall l w, cdotr (map (Cmult k) l) w = (k * cdotr l w)%C.
Proof. induction l as [|x l IH]; intros [|y w]; cbn; try ring. rewrite IH. ring. Qed.
Lemma hankel_scale flt rho (c0 c1 c0' c1' : R -> R) lam rte : rho <> 0 ->
  (forall l, c0' (l / a) = / a ^ 2 * c0 l) -> (forall l, c1' (l / a) = / a ^ 2 * c1 l) ->
  hankel_sum flt (a * rho) c0' c1' (map (fun l => l / a) lam) rte = (RtoC (/ a ^ 3) * hankel_sum flt rho c0 c1 lam rte)%C.
Proof.
  intros R0 H0 H1. unfold hankel_sum. rewrite !map2_map_l.
  assert (E : forall c c', (forall l, c' (l / a) = / a ^ 2 * c l) -> map2 (fun x z => (RtoC (c' (x / a)%R) * z)%C) lam rte = map (Cmult (RtoC (/ a ^ 2))) (map2 (fun la r => RtoC (c la) * r)%C lam rte)).
  { intros c c' H. rewrite map_map2. apply map2_ext'. intros l z. rewrite H, RtoC_mult. ring. }
  rewrite (E c0 c0' H0), (E c1 c1' H1), !cdotr_scale.
  assert (RR : RtoC rho <> 0%C) by (apply RtoC_neq; exact R0).
  replace (RtoC (/ a ^ 3)) with (RtoC (/ a ^ 2) * / RtoC a)%C by (rewrite <- RtoC_inv, <- RtoC_mult by lra; f_equal; field; lra).
  rewrite RtoC_mult. field. split; assumption.
Qed.
Lemma primary_scale o d : vnorm d <> 0 -> primary o (vscal a d) = vscal (/ a ^ 3) (primary o d).
Proof.
  intros N. unfold primary. rewrite norm_scale by exact A. generalize dependent (vnorm d). intros n N. apply vec3_eq; vunf; field; lra.
Qed.
Lemma receiver_scale flt o total p rte :
  receiver_field flt (scale_layered o) total (vscal a p) rte = option_map (cvscal (RtoC (/ a ^ 3))) (receiver_field flt o total p rte).
Proof.
  unfold receiver_field. cbn [Spec_Scaling.scale_layered ly_location ly_orientation ly_moment]. rewrite offset_scale.
  destruct (Req_EM_T (offset (ly_location o) p) 0) as [Z|Z]; [destruct (Req_EM_T (a * offset (ly_location o) p) 0) as [_|N]; [reflexivity|exfalso; apply N; rewrite Z; ring]|].
  destruct (Req_EM_T (a * offset (ly_location o) p) 0) as [N|_]; [exfalso; apply Z; apply (Rmult_eq_reg_l a); lra|].
  cbn [option_map]. f_equal. rewrite sub_scale. set (d := vsub p (ly_location o)). set (rho := offset (ly_location o) p) in *.
  replace (map (fun b => b / (a * rho)) (hf_base flt)) with (map (fun l => l / a) (map (fun b => b / rho) (hf_base flt))) by (rewrite map_map; apply map_ext; intros b; unfold Rdiv; rewrite Rinv_mult; ring).
  set (lam := map (fun b => b / rho) (hf_base flt)). rewrite map2_map_l.
  replace (map2 (fun (x : R) z => (z * RtoC (exp (- (x / a) * (vz (vscal a p) + vz (vscal a (ly_location o))))))%C) lam rte) with (map2 (fun la r => (r * RtoC (exp (- la * (vz p + vz (ly_location o)))))%C) lam rte)
    by (apply map2_ext'; intros x z; do 3 f_equal; vunf; field; lra).
  set (rt := map2 _ lam rte). set (or := ly_orientation o).
  assert (DX : vx (vscal a d) = a * vx d) by reflexivity. assert (DY : vy (vscal a d) = a * vy d) by reflexivity. rewrite DX, DY.
  assert (RH : forall k, k / (a * rho) ^ 2 = / a ^ 2 * (k / rho ^ 2)) by (intros k; field; split; [exact Z|lra]).
  rewrite (hankel_scale flt rho (C0x or (vx d) (vy d) rho) (C1x or (vx d) (vy d) rho)); [|exact Z| |].
  rewrite (hankel_scale flt rho (C0y or (vx d) (vy d) rho) (C1y or (vx d) (vy d) rho)); [|exact Z| |].
  rewrite (hankel_scale flt rho (C0z or (vx d) (vy d) rho) (C1z or (vx d) (vy d) rho)); [|exact Z| |].
  2-7: intros l; unfold C0x, C1x, C0y, C1y, C0z, C1z; unfold when_nz; destruct (Req_EM_T (vx or) 0), (Req_EM_T (vy or) 0), (Req_EM_T (vz or) 0); field; repeat split; try exact Z; lra.
  destruct total.
  - rewrite primary_scale.
    + generalize (hankel_sum flt rho (C0x or (vx d) (vy d) rho) (C1x or (vx d) (vy d) rho) lam rt) (hankel_sum flt rho (C0y or (vx d) (vy d) rho) (C1y or (vx d) (vy d) rho) lam rt) (hankel_sum flt rho (C0z or (vx d) (vy d) rho) (C1z or (vx d) (vy d) rho) lam rt) (primary or d).
      intros h1 h2 h3 pr. apply cvec_eq; cbn [cvscal cvadd cvof cvx cvy cvz vscal vx vy vz]; rewrite (RtoC_mult (/ a ^ 3)); ring.
    + intros E. apply vnorm_eq0 in E. apply Z. unfold rho, offset. unfold d, vsub, vzero in E. injection E as E1 E2 _. rewrite E1, E2. replace (0 ^ 2 + 0 ^ 2) with 0 by ring. apply sqrt_0.
  - apply cvec_eq; cbn [cvscal cvx cvy cvz]; ring.
Qed.
Lemma combine_map_r {X Y Z} (g : Y -> Z) : forall (l : list X) m, combine l (map g m) = map (fun q => (fst q, g (snd q))) (combine l m).
Proof. induction l as [|x l IH]; intros [|y m]; try reflexivity. cbn. now rewrite IH. Qed.
Lemma layered_scale mu_0 flt o xyz field : ly_quasistatic o = true \/ s = / a ->
  magnetic_field mu_0 flt (scale_layered o) (map (vscal a) xyz) field =
  rmap (map (map (option_map (cvscal (RtoC (/ a ^ 3)))))) (magnetic_field mu_0 flt o xyz field).
Proof.
  intros Q. unfold magnetic_field.
  assert (EX : existsb (fun p => Rltb (vz p) 0) (map (vscal a) xyz) = existsb (fun p => Rltb (vz p) 0) xyz).
  { clear -A. induction xyz as [|p l IH]; [reflexivity|]. cbn [map existsb]. rewrite IH. f_equal. rewrite <- (ltb_scale a A (vz p) 0). f_equal. ring. }
  rewrite EX. destruct (existsb _ xyz); [reflexivity|].
  assert (LA : flat_map (fun p => map (fun b => b / offset (ly_location (scale_layered o)) p) (hf_base flt)) (map (vscal a) xyz) = map (fun l => l / a) (flat_map (fun p => map (fun b => b / offset (ly_location o) p) (hf_base flt)) xyz)).
  { clear -A. induction xyz as [|p l IH]; [reflexivity|]. cbn [map flat_map]. rewrite map_app, IH. f_equal. rewrite map_map. apply map_ext. intros b. cbn [Spec_Scaling.scale_layered ly_location]. rewrite offset_scale. unfold Rdiv. rewrite Rinv_mult. ring. }
  rewrite LA. unfold n_layer, n_frequency. cbn [Spec_Scaling.scale_layered ly_frequency ly_thickness ly_sigma ly_mu ly_epsilon ly_quasistatic]. rewrite !map_length, as_array_scale.
  destruct (as_array _ _ (ly_sigma o)) as [sg|]; [|reflexivity]. cbn [rmap rbind]. destruct (as_array _ _ (ly_mu o)) as [m|]; [|reflexivity]. cbn [rbind]. destruct (as_array _ _ (ly_epsilon o)) as [e|]; [|reflexivity]. cbn [rbind].
  rewrite sigh_scale by exact Q. destruct (sigma_hat_fn _ sg e (ly_quasistatic o)) as [sh|]; [|reflexivity]. cbn [rmap rbind]. rewrite forward_scale.
  destruct (rTE_forward _ _ _ _ _ _) as [rt|]; [|reflexivity]. cbn [rbind rmap]. f_equal. rewrite map_map. apply map_ext. intros row. rewrite combine_map_r, !map_map. apply map_ext. intros [k p]. cbn [fst snd]. apply receiver_scale.
Qed.
End Scale.
