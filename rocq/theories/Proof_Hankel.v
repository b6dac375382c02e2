(** The layered dipole's field as a digital Hankel transform of reflected cylindrical waves (C106). *)
From Coq Require Import String Reals Lra Lia List Arith Bool.
From Coquelicot Require Import Coquelicot.
From Verif Require Import Vec3 Cplx Calculus Deriv Integral Numpy Model_RTE Model_Layered Spec_FDEM Spec_RTE Spec_Layered Spec_Hankel Proof_RTE6 Proof_Layered Proof_Layered2 Proof_Layered3 SpecFun.
Import ListNotations.
Open Scope R_scope.

(** ** Finite sums *)
Lemma csum_ext n g h : (forall i, (i < n)%nat -> g i = h i) -> csum n g = csum n h.
Proof. induction n; intros H; cbn; [reflexivity|]. rewrite IHn, H by (intros; auto with arith). reflexivity. Qed.
Lemma csum_first n g : csum (S n) g = (g 0%nat + csum n (fun i => g (S i)))%C.
Proof. induction n; cbn [csum] in *; [ring|]. rewrite IHn. ring. Qed.
Lemma csum_plus n g h : csum n (fun i => g i + h i)%C = (csum n g + csum n h)%C.
Proof. induction n; cbn; [ring|]. rewrite IHn. ring. Qed.
Lemma csum_scal n k g : csum n (fun i => k * g i)%C = (k * csum n g)%C.
Proof. induction n; cbn; [ring|]. rewrite IHn. ring. Qed.

Lemma map2_maps {A B D E} (f : B -> D -> E) (a : A -> B) (b : A -> D) l : map2 f (map a l) (map b l) = map (fun x => f (a x) (b x)) l.
Proof. unfold map2. induction l as [|x l IH]; cbn; [reflexivity|]. f_equal. exact IH. Qed.
Lemma cdotr_csum (h : R -> C) : forall l w, length w = length l -> cdotr (map h l) w = csum (length l) (fun i => h (nth i l 0%R) * RtoC (nth i w 0%R))%C.
Proof.
  induction l as [|x l IH]; intros [|y w] L; try discriminate; [reflexivity|].
  cbn [length map cdotr]. rewrite csum_first, IH by (cbn in L; lia). reflexivity.
Qed.

Lemma hankel_csum flt rho c0 c1 (g : R -> C) : whole flt -> rho <> 0 ->
  hankel_sum flt rho c0 c1 (map (fun b => b / rho) (hf_base flt)) (map g (map (fun b => b / rho) (hf_base flt))) =
  filtered flt rho (fun la => RtoC (c0 la) * g la)%C (fun la => RtoC (c1 la) * g la)%C.
Proof.
  intros [W0 W1] N. unfold hankel_sum, filtered. rewrite map_map, !map2_maps.
  rewrite !cdotr_csum by assumption. rewrite csum_plus. unfold Cdiv. rewrite <- RtoC_inv by assumption. ring.
Qed.

Lemma filtered_lin flt rho a0 a1 b0 b1 d0 d1 (x y z : R) k0 k1 :
  (forall la, k0 la = RtoC x * a0 la + RtoC y * b0 la + RtoC z * d0 la)%C -> (forall la, k1 la = RtoC x * a1 la + RtoC y * b1 la + RtoC z * d1 la)%C ->
  (filtered flt rho a0 a1 * RtoC x + filtered flt rho b0 b1 * RtoC y + filtered flt rho d0 d1 * RtoC z)%C = filtered flt rho k0 k1.
Proof.
  intros H0 H1. unfold filtered. set (n := length _).
  transitivity (RtoC (/ rho) * (RtoC x * csum n (fun i => a0 (nth i (hf_base flt) 0 / rho)%R * RtoC (nth i (hf_j0 flt) 0%R) + a1 (nth i (hf_base flt) 0 / rho)%R * RtoC (nth i (hf_j1 flt) 0%R))
     + RtoC y * csum n (fun i => b0 (nth i (hf_base flt) 0 / rho)%R * RtoC (nth i (hf_j0 flt) 0%R) + b1 (nth i (hf_base flt) 0 / rho)%R * RtoC (nth i (hf_j1 flt) 0%R))
     + RtoC z * csum n (fun i => d0 (nth i (hf_base flt) 0 / rho)%R * RtoC (nth i (hf_j0 flt) 0%R) + d1 (nth i (hf_base flt) 0 / rho)%R * RtoC (nth i (hf_j1 flt) 0%R))))%C; [ring|].
  f_equal. rewrite <- !csum_scal, <- !csum_plus. apply csum_ext. intros i _. rewrite H0, H1. ring.
Qed.

Lemma columns_values s g f : consistent s -> arrays s = Ok g -> (f < n_frequency s)%nat ->
  column (fst g) f = layer_sigmas s f /\ column (snd g) f = layer_mus s f.
Proof.
  intros Co G L. destruct (arrays_consistent s Co) as (g0 & G0 & S & V). assert (g0 = g) by congruence. subst g0.
  destruct S as (Q1 & Q2 & Q3 & Q4). unfold column, layer_sigmas, layer_mus. rewrite Q2, Q3.
  split; apply map_ext_in; intros l I; apply in_seq in I; apply V; lia.
Qed.

Lemma field_lemma mu_0 flt s xyz field r f k : consistent s -> whole flt -> field <> "total"%string -> magnetic_field mu_0 flt s xyz field = Ok r ->
  (f < n_frequency s)%nat -> (k < length xyz)%nat -> beside (nth k xyz vzero) (ly_location s) ->
  let p := nth k xyz vzero in let q := ly_location s in let o := ly_orientation s in
  let refl_at la := py_rTE mu_0 (nth f (ly_frequency s) 0) la (layer_sigmas s f) (layer_mus s f) (ly_thickness s) in
  exists h, entry r f k = Some h /\ forall e,
    cvdot h e = (RtoC (ly_moment s / (4 * PI)) * filtered flt (horizontally q p)
      (fun la => refl_at la * RtoC (exp (- la * (vz p + vz q)) * vdot e (kernel0 o (vx p - vx q) (vy p - vy q) la)))
      (fun la => refl_at la * RtoC (exp (- la * (vz p + vz q)) * vdot e (kernel1 o (vx p - vx q) (vy p - vy q) la))))%C.
Proof.
  intros Co W F H L K B p q o refl_at.
  destruct (proj1 (mf_ok _ _ _ _ _ _) H) as (_ & _ & _ & _ & g & G & S & _).
  destruct (mf_entry mu_0 flt s xyz field r g H G) as [_ E]. rewrite (E f k L K). clear E.
  fold p. assert (N : offset q p <> 0) by (apply offset_nz; exact B).
  unfold receiver_field. fold q. fold o. destruct (Req_EM_T (offset q p) 0) as [Z|_]; [contradiction|].
  rewrite (proj2 (String.eqb_neq field "total") F). cbv zeta. eexists. split; [reflexivity|]. intros e.
  change (horizontally q p) with (offset q p).
  destruct (columns_values s g f Co G L) as [C1 C2].
  set (lam := map (fun b => b / offset q p) (hf_base flt)).
  assert (RE : refl mu_0 flt s g f p = map refl_at lam).
  { unfold refl, lam, refl_at. rewrite map_map. apply map_ext. intros b. rewrite C1, C2. reflexivity. }
  rewrite RE.
  assert (RG : map2 (fun la r => r * RtoC (exp (- la * (vz p + vz q))))%C lam (map refl_at lam) = map (fun la => refl_at la * RtoC (exp (- la * (vz p + vz q))))%C lam).
  { transitivity (map2 (fun la r => r * RtoC (exp (- la * (vz p + vz q))))%C (map (fun x => x) lam) (map refl_at lam)); [rewrite map_id; reflexivity|]. rewrite map2_maps. reflexivity. }
  rewrite RG. cbn [vx vy vsub]. set (dx := vx p - vx q). set (dy := vy p - vy q).
  set (rho := offset q p) in *. unfold lam. rewrite !hankel_csum by assumption.
  unfold cvdot, cvscal. cbn [cvx cvy cvz].
  assert (R2 : rho ^ 2 = dx ^ 2 + dy ^ 2).
  { unfold rho, offset, dx, dy. rewrite pow2_sqrt; [ring|]. apply Rplus_le_le_0_compat; apply pow2_ge_0. }
  assert (RS : sqrt (dx ^ 2 + dy ^ 2) = rho) by reflexivity.
  match goal with |- _ = (_ * filtered flt rho ?k0 ?k1)%C => rewrite <- (filtered_lin flt rho (fun la => (RtoC (C0x o dx dy rho la) * (refl_at la * RtoC (exp (- la * (vz p + vz q)))))%C) (fun la => (RtoC (C1x o dx dy rho la) * (refl_at la * RtoC (exp (- la * (vz p + vz q)))))%C) (fun la => (RtoC (C0y o dx dy rho la) * (refl_at la * RtoC (exp (- la * (vz p + vz q)))))%C) (fun la => (RtoC (C1y o dx dy rho la) * (refl_at la * RtoC (exp (- la * (vz p + vz q)))))%C) (fun la => (RtoC (C0z o dx dy rho la) * (refl_at la * RtoC (exp (- la * (vz p + vz q)))))%C) (fun la => (RtoC (C1z o dx dy rho la) * (refl_at la * RtoC (exp (- la * (vz p + vz q)))))%C) (vx e) (vy e) (vz e) k0 k1) end.
  - ring.
  - intros la. unfold C0x, C0y, C0z, kernel0, vdot. cbn [vx vy vz].
    rewrite !nz_id by (intros ->; field; assumption). rewrite <- R2.
    generalize (refl_at la) as z. generalize (exp (- la * (vz p + vz q))) as w. intros w z. apply C_eq; reim; field; assumption.
  - intros la. unfold C1x, C1y, C1z, kernel1, vdot. cbn [vx vy vz]. rewrite RS.
    rewrite !nz_id by (intros ->; field; assumption). rewrite <- R2.
    generalize (refl_at la) as z. generalize (exp (- la * (vz p + vz q))) as w. intros w z. apply C_eq; reim; field; assumption.
Qed.

(** ** Bessel's integrals *)
Lemma PI0 : PI <> 0. Proof. exact PI_neq0. Qed.
Lemma c2_xsin x t : continuity_2d_pt (fun u v => u * sin v) x t.
Proof. apply (continuity_2d_pt_mult (fun u _ => u) (fun _ v => sin v)); [apply c2_fst|]. apply (continuity_1d_2d_pt_comp sin (fun _ v => v)); [apply continuity_sin|apply c2_snd]. Qed.
Lemma c2_sin x t : continuity_2d_pt (fun _ v => sin v) x t.
Proof. apply (continuity_1d_2d_pt_comp sin (fun _ v => v)); [apply continuity_sin|apply c2_snd]. Qed.

Lemma D_bessel0 x : is_derive bessel0 x (- bessel1 x).
Proof.
  unfold bessel0, bessel1.
  assert (D : is_derive (fun u => RInt (fun t => cos (u * sin t)) 0 PI) x (RInt (fun t => - (sin t * sin (x * sin t))) 0 PI)).
  { apply (derive_param (fun u t => cos (u * sin t)) (fun u t => - (sin t * sin (u * sin t)))).
    - apply Rlt_le, PI_RGT_0.
    - intros u t. eapply is_derive_eq; [der|]. ring.
    - intros t. apply (continuity_2d_pt_opp (fun u v => sin v * sin (u * sin v))).
      apply (continuity_2d_pt_mult (fun _ v => sin v) (fun u v => sin (u * sin v))); [apply c2_sin|].
      apply (continuity_1d_2d_pt_comp sin (fun u v => u * sin v)); [apply continuity_sin|apply c2_xsin].
    - intros u t. apply continuity_pt_filterlim. eapply derive_continuity. der. }
  eapply is_derive_eq; [der; exact PI0|].
  assert (E : RInt (fun t => - (sin t * sin (x * sin t))) 0 PI = - RInt (fun t => sin t * sin (x * sin t)) 0 PI).
  { apply (RInt_opp (V:=R_CompleteNormedModule) (fun t => sin t * sin (x * sin t))). apply (ex_RInt_continuous (V:=R_CompleteNormedModule)). intros t _. apply continuity_pt_filterlim. eapply derive_continuity. der. }
  rewrite E. field. exact PI0.
Qed.

Lemma parts x : x <> 0 -> RInt (fun t => sin t * (cos (x * sin t) * sin t)) 0 PI = RInt (fun t => cos (x * sin t)) 0 PI - RInt (fun t => sin t * sin (x * sin t)) 0 PI / x.
Proof.
  intros N. apply (is_RInt_unique (V:=R_CompleteNormedModule)).
  assert (C : forall (h : R -> R), (forall t, exists d, is_derive h t d) -> ex_RInt h 0 PI).
  { intros h Hd. apply (ex_RInt_continuous (V:=R_CompleteNormedModule)). intros t _. destruct (Hd t) as [d Hd']. apply continuity_pt_filterlim. eapply derive_continuity. exact Hd'. }
  assert (I1 : is_RInt (fun t => cos (x * sin t)) 0 PI (RInt (fun t => cos (x * sin t)) 0 PI)).
  { apply (RInt_correct (V:=R_CompleteNormedModule)), C. intros t. eexists. der. }
  assert (I2 : is_RInt (fun t => sin t * sin (x * sin t)) 0 PI (RInt (fun t => sin t * sin (x * sin t)) 0 PI)).
  { apply (RInt_correct (V:=R_CompleteNormedModule)), C. intros t. eexists. der. }
  assert (I3 : is_RInt (fun t => cos t * cos t * cos (x * sin t) - sin t * sin (x * sin t) / x) 0 PI (cos PI * sin (x * sin PI) / x - cos 0 * sin (x * sin 0) / x)).
  { apply (FTC (fun t => cos t * sin (x * sin t) / x)).
    - apply Rlt_le, PI_RGT_0.
    - intros t _. eapply is_derive_eq; [der; exact N|]. field. exact N.
    - intros t _. apply continuity_pt_filterlim. eapply derive_continuity. der. exact N. }
  rewrite sin_PI, sin_0, Rmult_0_r, sin_0 in I3. replace (cos PI * 0 / x - cos 0 * 0 / x) with 0 in I3 by (field; exact N).
  assert (I : is_RInt (fun t => cos (x * sin t) - / x * (sin t * sin (x * sin t)) - (cos t * cos t * cos (x * sin t) - sin t * sin (x * sin t) / x)) 0 PI
     (RInt (fun t => cos (x * sin t)) 0 PI - / x * RInt (fun t => sin t * sin (x * sin t)) 0 PI - 0)).
  { apply (is_RInt_minus (V:=R_NormedModule)); [apply (is_RInt_minus (V:=R_NormedModule))|exact I3]; [exact I1|]. apply (is_RInt_scal (V:=R_NormedModule)). exact I2. }
  replace (RInt (fun t => cos (x * sin t)) 0 PI - RInt (fun t => sin t * sin (x * sin t)) 0 PI / x) with
    (RInt (fun t => cos (x * sin t)) 0 PI - / x * RInt (fun t => sin t * sin (x * sin t)) 0 PI - 0) by (field; exact N).
  eapply is_RInt_ext; [|exact I]. intros t _. cbv beta. pose proof (sin2_cos2 t) as T. unfold Rsqr in T.
  replace (cos t * cos t) with (1 - sin t * sin t) by lra. lazymatch goal with |- @eq _ ?a ?b => change (@eq R a b) end. field. exact N.
Qed.

Lemma D_bessel1 x : x <> 0 -> is_derive bessel1 x (bessel0 x - bessel1 x / x).
Proof.
  intros N. unfold bessel0, bessel1.
  assert (D : is_derive (fun u => RInt (fun t => sin t * sin (u * sin t)) 0 PI) x (RInt (fun t => sin t * (cos (x * sin t) * sin t)) 0 PI)).
  { apply (derive_param (fun u t => sin t * sin (u * sin t)) (fun u t => sin t * (cos (u * sin t) * sin t))).
    - apply Rlt_le, PI_RGT_0.
    - intros u t. eapply is_derive_eq; [der|]. ring.
    - intros t. apply (continuity_2d_pt_mult (fun _ v => sin v) (fun u v => cos (u * sin v) * sin v)); [apply c2_sin|].
      apply (continuity_2d_pt_mult (fun u v => cos (u * sin v)) (fun _ v => sin v)); [|apply c2_sin].
      apply (continuity_1d_2d_pt_comp cos (fun u v => u * sin v)); [apply continuity_cos|apply c2_xsin].
    - intros u t. apply continuity_pt_filterlim. eapply derive_continuity. der. }
  rewrite (parts x N) in D.
  eapply is_derive_eq; [der; exact PI0|]. field. split; [exact PI0|exact N].
Qed.

(** ** The waves *)
Definition wave_slope (la : R) (o s q : vec3) : R :=
  exp (- la * (vz q + vz s)) * (la * (vx o * (vx q - vx s) + vy o * (vy q - vy s)) / horizontally s q * bessel1 (la * horizontally s q) - la * vz o * bessel0 (la * horizontally s q)).

Lemma horiz_pos s q : beside q s -> 0 < (vx q - vx s) ^ 2 + (vy q - vy s) ^ 2.
Proof.
  pose proof (pow2_ge_0 (vx q - vx s)). pose proof (pow2_ge_0 (vy q - vy s)).
  intros [N|N]; [assert (0 < (vx q - vx s) ^ 2) by (apply pow2_gt_0; lra)|assert (0 < (vy q - vy s) ^ 2) by (apply pow2_gt_0; lra)]; lra.
Qed.

Lemma D_comp (f g : R -> R) x df dg : is_derive f (g x) df -> is_derive g x dg -> is_derive (fun t => f (g t)) x (dg * df).
Proof. intros F G. exact (is_derive_comp f g x df dg F G). Qed.

Lemma slope_lemma la o s q : 0 < la -> beside q s -> is_derive (fun t => reflected_wave la (vadd s (vscal t o)) q) 0 (wave_slope la o s q).
Proof.
  intros La B. pose proof (horiz_pos s q B) as P. unfold reflected_wave, horizontally. cbn [vx vy vz vadd vscal].
  assert (HD : is_derive (fun t => la * sqrt ((vx q - (vx s + t * vx o)) ^ 2 + (vy q - (vy s + t * vy o)) ^ 2)) 0
     (- la * (vx o * (vx q - vx s) + vy o * (vy q - vy s)) / horizontally s q)).
  { assert (P' : 0 < (vx q - (vx s + 0 * vx o)) ^ 2 + (vy q - (vy s + 0 * vy o)) ^ 2) by (rewrite !Rmult_0_l, !Rplus_0_r; exact P).
    eapply is_derive_eq; [der; exact P'|]. rewrite !Rmult_0_l, !Rplus_0_r. unfold horizontally. cbn [Nat.pred INR pow].
    assert (0 < sqrt ((vx q - vx s) ^ 2 + (vy q - vy s) ^ 2)) by (apply sqrt_lt_R0; exact P). cbn [pow] in *. field. lra. }
  pose proof (D_comp bessel0 _ 0 _ _ (D_bessel0 _) HD) as DB. cbv beta in DB.
  eapply is_derive_eq; [der|]. cbv beta. rewrite !Rmult_0_l, !Rplus_0_r.
  change (sqrt ((vx q - vx s) ^ 2 + (vy q - vy s) ^ 2)) with (horizontally s q).
  assert (H0 : 0 < horizontally s q) by (apply sqrt_lt_R0; exact P).
  unfold wave_slope. field. lra.
Qed.

Lemma gradient_lemma la o s p e : 0 < la -> beside p s ->
  is_derive (fun t => wave_slope la o s (vadd p (vscal t e))) 0
    (exp (- la * (vz p + vz s)) * (vdot e (kernel0 o (vx p - vx s) (vy p - vy s) la) * bessel0 (la * horizontally s p)
                                   + vdot e (kernel1 o (vx p - vx s) (vy p - vy s) la) * bessel1 (la * horizontally s p))).
Proof.
  intros La B. pose proof (horiz_pos s p B) as P. unfold wave_slope.
  set (rho := fun t => horizontally s (vadd p (vscal t e))).
  assert (H0 : 0 < horizontally s p) by (apply sqrt_lt_R0; exact P).
  assert (R0 : rho 0 = horizontally s p).
  { unfold rho, horizontally. cbn [vx vy vz vadd vscal]. rewrite !Rmult_0_l, !Rplus_0_r. reflexivity. }
  assert (HD : is_derive rho 0 ((vx e * (vx p - vx s) + vy e * (vy p - vy s)) / horizontally s p)).
  { unfold rho, horizontally at 1. cbn [vx vy vz vadd vscal].
    assert (P' : 0 < (vx p + 0 * vx e - vx s) ^ 2 + (vy p + 0 * vy e - vy s) ^ 2) by (rewrite !Rmult_0_l, !Rplus_0_r; exact P).
    eapply is_derive_eq; [der; exact P'|]. rewrite !Rmult_0_l, !Rplus_0_r. unfold horizontally in *. cbn [Nat.pred INR pow] in *. field. lra. }
  assert (HL : is_derive (fun t => la * rho t) 0 (la * ((vx e * (vx p - vx s) + vy e * (vy p - vy s)) / horizontally s p))) by (der).
  assert (NZ : la * rho 0 <> 0) by (rewrite R0; apply Rgt_not_eq, Rmult_lt_0_compat; assumption).
  pose proof (D_comp bessel0 _ 0 _ _ (D_bessel0 _) HL) as D0. pose proof (D_comp bessel1 _ 0 _ _ (D_bessel1 _ NZ) HL) as D1. cbv beta in D0, D1.
  apply (is_derive_ext (fun t => exp (- la * (vz p + t * vz e + vz s)) *
     (la * (vx o * (vx p + t * vx e - vx s) + vy o * (vy p + t * vy e - vy s)) / rho t * bessel1 (la * rho t) - la * vz o * bessel0 (la * rho t)))).
  { intros t. reflexivity. }
  assert (NR : rho 0 <> 0) by (rewrite R0; lra).
  eapply is_derive_eq; [der; exact NR|]. cbv beta. rewrite !Rmult_0_l, !Rplus_0_r, R0.
  assert (RS : sqrt ((vx p - vx s) ^ 2 + (vy p - vy s) ^ 2) = horizontally s p) by reflexivity.
  assert (R2 : (vx p - vx s) ^ 2 + (vy p - vy s) ^ 2 = horizontally s p ^ 2) by (unfold horizontally; rewrite pow2_sqrt; [reflexivity|lra]).
  unfold kernel0, kernel1, vdot. cbn [vx vy vz]. rewrite RS, R2.
  set (dx := vx p - vx s) in *. set (dy := vy p - vy s) in *. set (h := horizontally s p) in *.
  field. split; lra.
Qed.

(** with the reflection coefficients of the boundary-value problem *)
Lemma filtered_ext flt rho k0 k1 k0' k1' : (forall i, (i < length (hf_base flt))%nat -> let la := nth i (hf_base flt) 0 / rho in k0 la = k0' la /\ k1 la = k1' la) ->
  filtered flt rho k0 k1 = filtered flt rho k0' k1'.
Proof. intros H. unfold filtered. f_equal. apply csum_ext. intros i L. destruct (H i L) as [-> ->]. reflexivity. Qed.

Lemma bessel_lemma : bessel0 0 = 1 /\ bessel1 0 = 0 /\ (forall x, is_derive bessel0 x (- bessel1 x)) /\
  (forall x, x <> 0 -> is_derive (fun x => x * bessel1 x) x (x * bessel0 x)).
Proof.
  split; [|split; [|split]].
  - unfold bessel0. rewrite (RInt_ext (V:=R_CompleteNormedModule) _ (fun _ => 1)) by (intros; rewrite Rmult_0_l; apply cos_0).
    rewrite RInt_const. cbn. unfold mult; cbn. field. exact PI0.
  - unfold bessel1. rewrite (RInt_ext (V:=R_CompleteNormedModule) _ (fun _ => 0)) by (intros; rewrite Rmult_0_l, sin_0; apply Rmult_0_r).
    rewrite RInt_const. cbn. unfold mult; cbn. field. exact PI0.
  - exact D_bessel0.
  - intros x N. pose proof (D_bessel1 x N) as D. eapply is_derive_eq; [der|]. field. exact N.
Qed.
