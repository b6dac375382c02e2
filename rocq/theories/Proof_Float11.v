(** Coordinate transforms in floating point (C135). *)
From Coq Require Import ZArith Reals Lra Lia Psatz Machin Ratan.
From Flocq Require Import Core.
From Coquelicot Require Import Coquelicot.
From Verif Require Import Vec3 Numpy Model_Spatial Proof_Spatial Model_Float Model_Float5 Spec_Float Spec_Float4 Proof_Float Proof_Float2 Proof_Float3 Proof_Float5 Proof_Float7 Proof_Float8 Proof_Float9 Proof_Oksar4.
Open Scope R_scope.

(** ** errors of products and sums, in units of [u R] *)
Lemma prod_err a A R c c' e f : 0 <= R -> 0 <= e <= 200 -> 0 <= f <= 200 -> Rabs A <= R -> Rabs c <= 1 -> Rabs (a - A) <= e * u * R -> Rabs (c' - c) <= f * u ->
  Rabs (fl (a * c') - A * c) <= (e + f + 3) * u * R.
Proof.
  intros R0 E F HA HC Ha Hc. pose proof u_pos. pose proof u_small. pose proof (fl_err (a * c')) as W.
  assert (C1 : Rabs c' <= 1 + f * u). { replace c' with ((c' - c) + c) by ring. eapply Rle_trans; [apply Rabs_triang|]. lra. }
  assert (A1 : Rabs a <= R * (1 + e * u)). { replace a with ((a - A) + A) by ring. eapply Rle_trans; [apply Rabs_triang|]. lra. }
  assert (U : u * u <= / 1000000 * u) by nra. assert (0 <= u * R) by nra.
  assert (P : Rabs (a * c') <= R * (1001 / 1000)).
  { rewrite Rabs_mult. apply Rle_trans with (R * (1 + e * u) * (1 + f * u)); [apply Rmult_le_compat; try apply Rabs_pos; assumption|].
    rewrite Rmult_assoc. apply Rmult_le_compat_l; [exact R0|]. assert (e * u <= 2 / 10000) by nra. assert (f * u <= 2 / 10000) by nra. assert (0 <= e * u) by nra. assert (0 <= f * u) by nra. nra. }
  replace (fl (a * c') - A * c) with ((fl (a * c') - a * c') + ((a - A) * c' + A * (c' - c))) by ring.
  eapply Rle_trans; [apply Rabs_triang|]. pose proof (Rabs_triang ((a - A) * c') (A * (c' - c))) as T. rewrite !Rabs_mult in T.
  assert (T1 : Rabs (a - A) * Rabs c' <= e * u * R * (1 + f * u)) by (apply Rmult_le_compat; try apply Rabs_pos; assumption).
  assert (T2 : Rabs A * Rabs (c' - c) <= R * (f * u)) by (apply Rmult_le_compat; try apply Rabs_pos; assumption).
  assert (W' : Rabs (fl (a * c') - a * c') <= 2 * u * (R * (1001 / 1000))) by (eapply Rle_trans; [exact W|]; apply Rmult_le_compat_l; lra).
  assert (T3 : e * u * R * (f * u) <= / 10 * (u * R)).
  { replace (e * u * R * (f * u)) with (e * f * u * (u * R)) by ring. apply Rmult_le_compat_r; [assumption|]. assert (e * f <= 40000) by nra. nra. }
  lra.
Qed.
Lemma sum_err a A b B R e f m : 0 <= R -> 0 <= e + f <= 400 -> 0 <= m <= 2 -> Rabs (A + B) <= m * R -> Rabs (a - A) <= e * u * R -> Rabs (b - B) <= f * u * R ->
  Rabs (fl (a + b) - (A + B)) <= (e + f + 2 * m + 1) * u * R.
Proof.
  intros R0 E M HA Ha Hb. pose proof u_pos. pose proof u_small. pose proof (fl_err (a + b)) as W. assert (0 <= u * R) by nra.
  assert (D : Rabs ((a - A) + (b - B)) <= (e + f) * u * R) by (eapply Rle_trans; [apply Rabs_triang|]; lra).
  assert (S : Rabs (a + b) <= m * R + (e + f) * u * R). { replace (a + b) with (((a - A) + (b - B)) + (A + B)) by ring. eapply Rle_trans; [apply Rabs_triang|]. lra. }
  assert (S' : Rabs (a + b) <= (m + 1 / 1000) * R). { assert ((e + f) * u * R <= 1 / 1000 * R) by (apply Rmult_le_compat_r; [exact R0|nra]). lra. }
  replace (fl (a + b) - (A + B)) with ((fl (a + b) - (a + b)) + ((a - A) + (b - B))) by ring. eapply Rle_trans; [apply Rabs_triang|].
  assert (2 * u * Rabs (a + b) <= 2 * u * ((m + 1 / 1000) * R)) by (apply Rmult_le_compat_l; lra). lra.
Qed.

(** ** angles *)
Lemma cos_lip a b : Rabs (cos a - cos b) <= Rabs (a - b).
Proof.
  destruct (MVT_abs cos (fun t => - sin t) b a) as (c & E & _); [intros; apply derivable_pt_lim_cos|]. rewrite E, Rabs_Ropp.
  pose proof (SIN_bound c). assert (Rabs (sin c) <= 1) by (apply Rabs_le; lra). pose proof (Rabs_pos (a - b)). nra.
Qed.
Lemma sin_lip a b : Rabs (sin a - sin b) <= Rabs (a - b).
Proof.
  destruct (MVT_abs sin cos b a) as (c & E & _); [intros; apply derivable_pt_lim_sin|]. rewrite E.
  pose proof (COS_bound c). assert (Rabs (cos c) <= 1) by (apply Rabs_le; lra). pose proof (Rabs_pos (a - b)). nra.
Qed.
Lemma cos_abs t : Rabs (cos t) <= 1. Proof. apply Rabs_le, COS_bound. Qed.
Lemma sin_abs t : Rabs (sin t) <= 1. Proof. apply Rabs_le, SIN_bound. Qed.
Lemma near_sign k a b : near k a b -> (0 < b -> 0 < a) /\ (b < 0 -> a < 0) /\ (b = 0 -> a = 0).
Proof.
  intros H. split; [apply (near_pos k); exact H|]. split.
  - intros N. pose proof (near_pos k (- a) (- b) (near_opp _ _ _ H)). lra.
  - intros ->. apply (near_0 k), H.
Qed.
Lemma atan2_near j k y' y x' x : (j + k <= 100)%nat -> near j y' y -> near k x' x -> Rabs (atan2 y' x' - atan2 y x) <= (INR (j + k) + 1) * u.
Proof.
  intros L Y X. pose proof (near_sign _ _ _ Y) as (Y1 & Y2 & Y3). pose proof (near_sign _ _ _ X) as (X1 & X2 & X3).
  pose proof (atan_near (j + k) _ _ L (near_div _ _ _ _ _ _ Y X)) as A. pose proof u_pos. pose proof (pos_INR (j + k)).
  assert (Z : 0 <= (INR (j + k) + 1) * u) by nra.
  unfold atan2. destruct (Rlt_dec 0 x) as [P|P].
  - destruct (Rlt_dec 0 x') as [Q|Q]; [exact A|exfalso; apply Q, X1, P].
  - destruct (Rlt_dec x 0) as [N|N].
    + specialize (X2 N). destruct (Rlt_dec 0 x'); [lra|]. destruct (Rlt_dec x' 0); [|lra].
      destruct (Rle_dec 0 y) as [B|B].
      * destruct (Rle_dec 0 y') as [B'|B']; [|exfalso; apply B'; destruct B as [B|B]; [left; apply Y1, B|right; symmetry; apply Y3; lra]].
        replace (atan (y' / x') + PI - (atan (y / x) + PI)) with (atan (y' / x') - atan (y / x)) by ring. exact A.
      * destruct (Rle_dec 0 y') as [B'|B']; [pose proof (Y2 ltac:(lra)); lra|].
        replace (atan (y' / x') - PI - (atan (y / x) - PI)) with (atan (y' / x') - atan (y / x)) by ring. exact A.
    + assert (x = 0) by lra. rewrite (X3 H1). destruct (Rlt_dec 0 0); [lra|].
      destruct (Rlt_dec 0 y) as [B|B]; [destruct (Rlt_dec 0 y') as [B'|B']; [|specialize (Y1 B); lra]; rewrite Rminus_eq_0, Rabs_R0; exact Z|].
      destruct (Rlt_dec y 0) as [D|D]; [specialize (Y2 D); destruct (Rlt_dec 0 y'); [lra|]; destruct (Rlt_dec y' 0); [|lra]; rewrite Rminus_eq_0, Rabs_R0; exact Z|].
      specialize (Y3 ltac:(lra)). rewrite Y3. destruct (Rlt_dec 0 0); [lra|]. rewrite Rminus_eq_0, Rabs_R0. exact Z.
Qed.

Lemma by_eq v a b e : a = b -> Rabs (v - a) <= e -> Rabs (v - b) <= e. Proof. intros ->. auto. Qed.
Section Lib.
  Variables (ct st : R -> R) (at2 : R -> R -> R).
  Hypotheses (GC : good_cos ct) (GS : good_sin st) (GA : good_atan2 at2).
  Lemma ct_err t t' e : Rabs (t' - t) <= e * u -> Rabs (ct t' - cos t) <= (e + 8) * u.
  Proof.
    intros H. pose proof (GC t') as W. unfold within in W. fold u in W. pose proof (cos_abs t'). pose proof (cos_lip t' t). pose proof u_pos.
    replace (ct t' - cos t) with ((ct t' - cos t') + (cos t' - cos t)) by ring. eapply Rle_trans; [apply Rabs_triang|]. nra.
  Qed.
  Lemma st_err t t' e : Rabs (t' - t) <= e * u -> Rabs (st t' - sin t) <= (e + 8) * u.
  Proof.
    intros H. pose proof (GS t') as W. unfold within in W. fold u in W. pose proof (sin_abs t'). pose proof (sin_lip t' t). pose proof u_pos.
    replace (st t' - sin t) with ((st t' - sin t') + (sin t' - sin t)) by ring. eapply Rle_trans; [apply Rabs_triang|]. nra.
  Qed.
  Lemma at2_err y x : Rabs (at2 y x - atan2 y x) <= 26 * u.
  Proof.
    destruct (GA y x) as (_ & W). unfold within in W. fold u in W. pose proof (atan2_range x y) as (A & B). pose proof PI_bounds. pose proof u_pos.
    assert (Rabs (atan2 y x) <= 315 / 100) by (apply Rabs_le; lra). nra.
  Qed.
  Lemma at2_err' j k y y' x x' : (j + k <= 100)%nat -> near j y' y -> near k x' x -> Rabs (at2 y' x' - atan2 y x) <= (INR (j + k) + 27) * u.
  Proof.
    intros L Y X. pose proof (atan2_near j k y' y x' x L Y X). pose proof (at2_err y' x').
    replace (at2 y' x' - atan2 y x) with ((at2 y' x' - atan2 y' x') + (atan2 y' x' - atan2 y x)) by ring. eapply Rle_trans; [apply Rabs_triang|]. lra.
  Qed.
  Lemma near_hyp k x y x' y' : near k x' x -> near k y' y -> near (k + 2) (fl (sqrt (fl (fl (x' * x') + fl (y' * y'))))) (sqrt (x ^ 2 + y ^ 2)).
  Proof.
    intros X Y. replace (k + 2)%nat with (S (k + 1)) by lia. apply near_round, near_sqrt; [nra|]. replace (2 * (k + 1))%nat with (S (S (k + k))) by lia.
    replace (x ^ 2 + y ^ 2) with (x * x + y * y) by ring. apply near_round, near_plus; [nra|nra| |]; apply near_round, near_mult; assumption.
  Qed.
  (** ** round trips of positions *)
  Lemma near_abs_err k a b : (k <= 100)%nat -> 0 <= b -> near k a b -> Rabs (a - b) <= (INR k + 1) * u * b.
  Proof. intros. apply near_diff_le; [lia|assumption|assumption]. Qed.
  Lemma cyl_round g : let g' := fcyl_to_cart ct st (fcart_to_cyl at2 g) in let r := sqrt (vx g ^ 2 + vy g ^ 2) in
    Rabs (vx g' - vx g) <= 48 * u * r /\ Rabs (vy g' - vy g) <= 48 * u * r /\ vz g' = vz g.
  Proof.
    intros g' r. unfold g', fcyl_to_cart, fcart_to_cyl, fsq; cbn [vx vy vz].
    pose proof (near_hyp 0 _ _ _ _ (near_refl 0 (vx g)) (near_refl 0 (vy g))) as N. fold r in N. cbn [Nat.add] in N. assert (R0 : 0 <= r) by apply sqrt_pos.
    pose proof (near_abs_err 2 _ _ ltac:(lia) R0 N) as E. cbn [INR] in E. set (a := fl (sqrt _)) in *.
    destruct (atan2_polar (vx g) (vy g)) as (Px & Py). fold r in Px, Py. pose proof (at2_err (vy g) (vx g)) as T. pose proof u_pos.
    split; [|split; [|reflexivity]].
    - apply (by_eq _ _ _ _ Px). eapply Rle_trans; [apply (prod_err a r r (cos (atan2 (vy g) (vx g))) _ 3 34); try lra; [rewrite Rabs_pos_eq; lra|apply cos_abs|]|]; [|assert (0 <= u * r) by nra; lra].
      pose proof (ct_err _ _ _ T). lra.
    - apply (by_eq _ _ _ _ Py). eapply Rle_trans; [apply (prod_err a r r (sin (atan2 (vy g) (vx g))) _ 3 34); try lra; [rewrite Rabs_pos_eq; lra|apply sin_abs|]|]; [|assert (0 <= u * r) by nra; lra].
      pose proof (st_err _ _ _ T). lra.
  Qed.
  Lemma ct_near t : near 9 (ct t) (cos t). Proof. apply (within_near 8 8); [lra|cbn; lra|lra|apply GC]. Qed.
  Lemma st_near t : near 9 (st t) (sin t). Proof. apply (within_near 8 8); [lra|cbn; lra|lra|apply GS]. Qed.
  Lemma cyl_round' g : 0 < vx g -> - PI < vy g <= PI -> let g' := fcart_to_cyl at2 (fcyl_to_cart ct st g) in
    within 13 (vx g') (vx g) /\ Rabs (vy g' - vy g) <= 48 * u /\ vz g' = vz g.
  Proof.
    intros P F g'. unfold g', fcyl_to_cart, fcart_to_cyl, fsq; cbn [vx vy vz].
    assert (X : near 10 (fl (vx g * ct (vy g))) (vx g * cos (vy g))) by (apply near_round; apply (near_mult 0 9); [apply near_refl|apply ct_near]).
    assert (Y : near 10 (fl (vx g * st (vy g))) (vx g * sin (vy g))) by (apply near_round; apply (near_mult 0 9); [apply near_refl|apply st_near]).
    split; [|split; [|reflexivity]].
    - pose proof (near_hyp 10 _ _ _ _ X Y) as H. cbn [Nat.add] in H. replace (sqrt ((vx g * cos (vy g)) ^ 2 + (vx g * sin (vy g)) ^ 2)) with (vx g) in H.
      + apply near_within in H; [|lia]. replace (INR 12 + 1) with 13 in H by (cbn; ring). exact H.
      + replace ((vx g * cos (vy g)) ^ 2 + (vx g * sin (vy g)) ^ 2) with (vx g ^ 2 * (Rsqr (sin (vy g)) + Rsqr (cos (vy g)))) by (unfold Rsqr; ring). rewrite sin2_cos2, Rmult_1_r, sqrt_pow2; lra.
    - pose proof (at2_err' 10 10 _ _ _ _ ltac:(lia) Y X) as H. rewrite atan2_unique in H by assumption. cbn [Nat.add INR] in H. pose proof u_pos. lra.
  Qed.
  Lemma sph_round g : let g' := fsph_to_cart ct st (fcart_to_sph at2 g) in
    Rabs (vx g' - vx g) <= 100 * u * vnorm g /\ Rabs (vy g' - vy g) <= 100 * u * vnorm g /\ Rabs (vz g' - vz g) <= 100 * u * vnorm g.
  Proof.
    intros g'. unfold g', fsph_to_cart, fcart_to_sph; cbn [vx vy vz]. set (r := vnorm g). assert (R0 : 0 <= r) by apply vnorm_nonneg.
    pose proof (near_norm g) as N. fold r in N. pose proof (near_abs_err 4 _ _ ltac:(lia) R0 N) as E. cbn [INR] in E.
    pose proof (near_hyp 0 _ _ _ _ (near_refl 0 (vx g)) (near_refl 0 (vy g))) as Nr. cbn [Nat.add] in Nr. set (rho := sqrt (vx g ^ 2 + vy g ^ 2)) in *.
    pose proof (at2_err' 2 0 _ _ _ _ ltac:(lia) Nr (near_refl 0 (vz g))) as Tt. cbn [Nat.add INR] in Tt. pose proof (at2_err (vy g) (vx g)) as Tp.
    set (th := atan2 rho (vz g)) in *. set (ph := atan2 (vy g) (vx g)) in *. set (th' := at2 (fl (sqrt _)) (vz g)) in *. set (ph' := at2 (vy g) (vx g)) in *.
    assert (H0 : 0 <= rho) by apply sqrt_pos.
    assert (Hr : sqrt (vz g ^ 2 + rho ^ 2) = r).
    { unfold r, vnorm, vnorm2, vdot. f_equal. assert (Q : rho ^ 2 = vx g ^ 2 + vy g ^ 2) by (unfold rho; rewrite <- Rsqr_pow2, Rsqr_sqrt; [reflexivity|nra]). rewrite Q. ring. }
    destruct (atan2_polar (vz g) rho) as (Pz & Pr). rewrite Hr in Pz, Pr. fold th in Pz, Pr. destruct (atan2_polar (vx g) (vy g)) as (Px & Py). fold rho ph in Px, Py.
    pose proof u_pos. assert (U0 : 0 <= u * r) by nra.
    pose proof (ct_err _ _ _ Tt) as Ct. pose proof (st_err _ _ _ Tt) as St. pose proof (ct_err _ _ _ Tp) as Cp. pose proof (st_err _ _ _ Tp) as Sp.
    assert (Er : Rabs (fl (fnorm g * st th') - rho) <= 45 * u * r).
    { rewrite <- Pr. eapply Rle_trans; [apply (prod_err (fnorm g) r r (sin th) (st th') 5 37); try lra; [rewrite Rabs_pos_eq; lra|apply sin_abs]|lra]. }
    assert (Rr : Rabs rho <= r). { rewrite Rabs_pos_eq by exact H0. rewrite <- Pr. pose proof (SIN_bound th). nra. }
    split; [|split].
    - apply (by_eq _ _ _ _ Px). eapply Rle_trans; [apply (prod_err _ rho r (cos ph) (ct ph') 45 34); try lra; [apply cos_abs]|lra].
    - apply (by_eq _ _ _ _ Py). eapply Rle_trans; [apply (prod_err _ rho r (sin ph) (st ph') 45 34); try lra; [apply sin_abs]|lra].
    - apply (by_eq _ _ _ _ Pz). eapply Rle_trans; [apply (prod_err (fnorm g) r r (cos th) (ct th') 5 37); try lra; [rewrite Rabs_pos_eq; lra|apply cos_abs]|lra].
  Qed.
  (** ** vectors *)
  Lemma abs2 a b c d : Rabs c <= 1 -> Rabs d <= 1 -> Rabs (a * c + b * d) <= Rabs a + Rabs b.
  Proof. intros C D. eapply Rle_trans; [apply Rabs_triang|]. rewrite !Rabs_mult. pose proof (Rabs_pos a). pose proof (Rabs_pos b). nra. Qed.
  Lemma rot_err a A b B R e c c' d d' m : 0 <= R -> 0 <= e <= 100 -> 0 <= m <= 2 -> Rabs A <= R -> Rabs B <= R -> Rabs c <= 1 -> Rabs d <= 1 ->
    Rabs (A * c + B * d) <= m * R -> Rabs (a - A) <= e * u * R -> Rabs (b - B) <= e * u * R -> Rabs (c' - c) <= 8 * u -> Rabs (d' - d) <= 8 * u ->
    Rabs (fl (fl (a * c') + fl (b * d')) - (A * c + B * d)) <= (2 * e + 27) * u * R.
  Proof.
    intros R0 E M HA HB HC HD HS Ha Hb Hc Hd. pose proof u_pos. assert (0 <= u * R) by nra.
    eapply Rle_trans; [apply (sum_err _ (A * c) _ (B * d) R (e + 8 + 3) (e + 8 + 3) m R0); try lra; apply prod_err; try assumption; lra|]. nra.
  Qed.
  Lemma ct_1 t : Rabs (ct t - cos t) <= 8 * u.
  Proof. pose proof (ct_err t t 0). rewrite Rminus_eq_0, Rabs_R0, Rmult_0_l in H. specialize (H (Rle_refl 0)). lra. Qed.
  Lemma st_1 t : Rabs (st t - sin t) <= 8 * u.
  Proof. pose proof (st_err t t 0). rewrite Rminus_eq_0, Rabs_R0, Rmult_0_l in H. specialize (H (Rle_refl 0)). lra. Qed.
  Lemma nst_1 t : Rabs (- st t - - sin t) <= 8 * u.
  Proof. replace (- st t - - sin t) with (- (st t - sin t)) by ring. rewrite Rabs_Ropp. apply st_1. Qed.
  Lemma msub p b s : fl (p - fl (b * s)) = fl (p + fl (b * - s)).
  Proof. replace (b * - s) with (- (b * s)) by ring. rewrite fl_opp. f_equal. Qed.
  (** a vector turned by the computed cosine and sine of [t] *)
  Lemma turn_err a A b B R e t : 0 <= R -> 0 <= e <= 100 -> Rabs A <= R -> Rabs B <= R -> Rabs (a - A) <= e * u * R -> Rabs (b - B) <= e * u * R ->
    (Rabs (fl (fl (a * ct t) - fl (b * st t)) - (A * cos t - B * sin t)) <= (2 * e + 27) * u * R /\
     Rabs (fl (fl (a * st t) + fl (b * ct t)) - (A * sin t + B * cos t)) <= (2 * e + 27) * u * R) /\
    (Rabs (fl (fl (ct t * a) + fl (st t * b)) - (A * cos t + B * sin t)) <= (2 * e + 27) * u * R /\
     Rabs (fl (fl (- st t * a) + fl (ct t * b)) - (- (A * sin t) + B * cos t)) <= (2 * e + 27) * u * R).
  Proof.
    intros R0 E HA HB Ha Hb. pose proof (cos_abs t) as C. pose proof (sin_abs t) as S. assert (S' : Rabs (- sin t) <= 1) by (rewrite Rabs_Ropp; exact S).
    pose proof (ct_1 t) as Ct. pose proof (st_1 t) as St. pose proof (nst_1 t) as Nt.
    assert (M : forall c d, Rabs c <= 1 -> Rabs d <= 1 -> Rabs (A * c + B * d) <= 2 * R) by (intros c d Hc Hd; pose proof (abs2 A B c d Hc Hd); lra).
    split; split.
    - rewrite msub. replace (A * cos t - B * sin t) with (A * cos t + B * - sin t) by ring. apply (rot_err a A b B R e _ _ _ _ 2); auto; lra.
    - apply (rot_err a A b B R e _ _ _ _ 2); auto; lra.
    - rewrite (Rmult_comm (ct t)), (Rmult_comm (st t)). apply (rot_err a A b B R e _ _ _ _ 2); auto; lra.
    - rewrite (Rmult_comm (- st t)), (Rmult_comm (ct t)). replace (- (A * sin t) + B * cos t) with (A * - sin t + B * cos t) by ring. apply (rot_err a A b B R e _ _ _ _ 2); auto; lra.
  Qed.
  Definition horiz (v : vec3) : R := sqrt (vx v ^ 2 + vy v ^ 2).
  Lemma horiz_x v : Rabs (vx v) <= horiz v.
  Proof. unfold horiz. rewrite <- sqrt_Rsqr_abs. apply sqrt_le_1_alt. unfold Rsqr. nra. Qed.
  Lemma horiz_y v : Rabs (vy v) <= horiz v.
  Proof. unfold horiz. rewrite <- sqrt_Rsqr_abs. apply sqrt_le_1_alt. unfold Rsqr. nra. Qed.
  Lemma turned_le A B t R : 0 <= R -> A ^ 2 + B ^ 2 <= R ^ 2 -> Rabs (A * cos t + B * sin t) <= R /\ Rabs (- (A * sin t) + B * cos t) <= R.
  Proof.
    intros R0 H. pose proof (sin2_cos2 t) as Q. unfold Rsqr in Q.
    assert (W : (A * cos t + B * sin t) ^ 2 + (- (A * sin t) + B * cos t) ^ 2 = A ^ 2 + B ^ 2) by (replace (A ^ 2 + B ^ 2) with ((A ^ 2 + B ^ 2) * (sin t * sin t + cos t * cos t)) by (rewrite Q; ring); ring).
    pose proof (pow2_ge_0 (A * cos t + B * sin t)). pose proof (pow2_ge_0 (- (A * sin t) + B * cos t)).
    split; apply Rsqr_incr_0_var; try assumption; rewrite <- Rsqr_abs; unfold Rsqr; lra.
  Qed.
  Lemma vec_errors g v : let h := horiz v in let t := vy g in
    let w := fcyl_to_cart_vec ct st g v in
    Rabs (vx w - (vx v * cos t - vy v * sin t)) <= 27 * u * h /\ Rabs (vy w - (vx v * sin t + vy v * cos t)) <= 27 * u * h /\ vz w = vz v.
  Proof.
    intros h t w. assert (H0 : 0 <= h) by apply sqrt_pos. pose proof u_pos.
    assert (Z : forall x, Rabs (x - x) <= 0 * u * h) by (intros; rewrite Rminus_eq_0, Rabs_R0; lra).
    destruct (turn_err (vx v) (vx v) (vy v) (vy v) h 0 t H0 ltac:(lra) (horiz_x v) (horiz_y v) (Z _) (Z _)) as ((A & B) & _).
    replace (2 * 0 + 27) with 27 in A, B by ring. split; [exact A|]. split; [exact B|reflexivity].
  Qed.
  Lemma vec_round g v : let h := horiz v in
    let w := fcyl_to_cart_vec ct st (fcart_to_cyl at2 g) (fcart_to_cyl_vec ct st at2 g v) in
    Rabs (vx w - vx v) <= 81 * u * h /\ Rabs (vy w - vy v) <= 81 * u * h /\ vz w = vz v.
  Proof.
    intros h w. unfold w, fcyl_to_cart_vec, fcart_to_cyl, fcart_to_cyl_vec; cbn [vx vy vz]. set (t := at2 (vy g) (vx g)). assert (H0 : 0 <= h) by apply sqrt_pos. pose proof u_pos.
    assert (Z : forall x, Rabs (x - x) <= 0 * u * h) by (intros; rewrite Rminus_eq_0, Rabs_R0; lra).
    destruct (turn_err (vx v) (vx v) (vy v) (vy v) h 0 t H0 ltac:(lra) (horiz_x v) (horiz_y v) (Z _) (Z _)) as (_ & A & B).
    replace (2 * 0 + 27) with 27 in A, B by ring.
    assert (HH : vx v ^ 2 + vy v ^ 2 <= h ^ 2) by (unfold h, horiz; rewrite <- (Rsqr_pow2 (sqrt _)), Rsqr_sqrt by nra; lra).
    destruct (turned_le (vx v) (vy v) t h H0 HH) as (P & Q).
    destruct (turn_err _ _ _ _ h 27 t H0 ltac:(lra) P Q A B) as ((X & Y) & _). pose proof (sin2_cos2 t) as S. unfold Rsqr in S.
    replace (2 * 27 + 27) with 81 in X, Y by ring.
    split; [|split; [|reflexivity]].
    - refine (by_eq _ _ _ _ _ X). replace (vx v) with (vx v * (sin t * sin t + cos t * cos t)) at 3 by (rewrite S; ring). ring.
    - refine (by_eq _ _ _ _ _ Y). replace (vy v) with (vy v * (sin t * sin t + cos t * cos t)) at 3 by (rewrite S; ring). ring.
  Qed.
End Lib.

(** ** a float is not half of PI *)
Lemma PI_close : 314159265358979323 / 10 ^ 17 <= PI <= 314159265358979324 / 10 ^ 17.
Proof.
  destruct (PI_2_3_7_ineq 9) as [A B]. unfold tg_alt, PI_2_3_7_tg, Ratan_seq in A, B.
  cbn [sum_f_R0 Nat.mul Nat.add pow] in A, B. simpl INR in A, B. split; lra.
Qed.
Lemma float_not_half_pi t : float t -> t <> PI / 2.
Proof.
  intros F E. pose proof PI_close as P. destruct (float_grid t 0 F) as (m & M); [rewrite bpow_z; lra|].
  replace (0 - 52)%Z with (-52)%Z in M by lia. rewrite bpow_52 in M.
  assert (L : 7074237752028440 < IZR m < 7074237752028441) by (rewrite M in E; lra).
  destruct L as (L1 & L2). apply lt_IZR in L1. apply lt_IZR in L2. lia.
Qed.
Lemma float_not_pi t : float t -> t <> PI.
Proof.
  intros F E. apply (float_not_half_pi (t / 2)); [|lra]. replace (t / 2) with (t * bpow radix2 (-1)) by (rewrite bpow_m1; field).
  rewrite <- (fl_id t F). rewrite <- fl_scale. apply fl_float.
Qed.
Section Axes.
  Variables (ct st : R -> R) (at2 : R -> R -> R).
  Hypotheses (GC : good_cos ct) (GS : good_sin st) (GA : good_atan2 at2).
  Lemma sin_small_n0 d : d <> 0 -> Rabs d < 1 -> sin d <> 0.
  Proof.
    intros N B. apply Rabs_def2 in B. pose proof PI_bounds. destruct (Rlt_dec 0 d) as [P|P].
    - pose proof (sin_gt_0 d P ltac:(lra)). lra.
    - pose proof (sin_gt_0 (- d) ltac:(lra) ltac:(lra)) as H0. rewrite sin_neg in H0. lra.
  Qed.
  Lemma fl_n0 x : x <> 0 -> fl x <> 0. Proof. apply (near_n0 1), near_fl. Qed.
  Lemma prod_n0 a b : a <> 0 -> b <> 0 -> fl (a * b) <> 0.
  Proof. intros A B. apply fl_n0, Rmult_integral_contrapositive_currified; assumption. Qed.
  Lemma hyp_n0 x y : x <> 0 \/ y <> 0 -> fl (sqrt (fl (fl (x * x) + fl (y * y)))) <> 0.
  Proof.
    intros H. pose proof (near_hyp 0 _ _ _ _ (near_refl 0 x) (near_refl 0 y)) as N. cbn [Nat.add] in N. apply (near_n0 _ _ _ N).
    assert (0 < x ^ 2 + y ^ 2) by (destruct H; nra). pose proof (sqrt_lt_R0 _ H0). lra.
  Qed.
  Lemma u_40 : 26 * u < 1. Proof. pose proof u_small. lra. Qed.
  Lemma cos_half y : y <> 0 -> ct (at2 y 0) <> 0.
  Proof.
    intros N. apply (near_n0 9 _ _ (ct_near ct GC _)). destruct (GA y 0) as (F & _). pose proof (at2_err at2 GA y 0) as E. pose proof u_40.
    set (t := at2 y 0) in *. unfold atan2 in E. destruct (Rlt_dec 0 0) as [?|_]; [lra|]. destruct (Rlt_dec 0 y) as [P|P].
    - pose proof (float_not_half_pi t F) as Q. replace t with (PI / 2 - (PI / 2 - t)) by ring. rewrite cos_shift. apply sin_small_n0; [lra|]. rewrite Rabs_minus_sym. lra.
    - destruct (Rlt_dec y 0) as [D|D]; [|lra]. pose proof (float_not_half_pi (- t) (float_opp _ F)) as Q. replace t with (- (PI / 2 - (PI / 2 - - t))) by ring.
      rewrite cos_neg, cos_shift. apply sin_small_n0; [lra|]. replace (PI / 2 - - t) with (t - - (PI / 2)) by ring. lra.
  Qed.
  Lemma sin_pi x : x < 0 -> st (at2 0 x) <> 0.
  Proof.
    intros N. apply (near_n0 9 _ _ (st_near st GS _)). destruct (GA 0 x) as (F & _). pose proof (at2_err at2 GA 0 x) as E. pose proof u_40.
    set (t := at2 0 x) in *. unfold atan2 in E. destruct (Rlt_dec 0 x) as [?|_]; [lra|]. destruct (Rlt_dec x 0) as [_|?]; [|lra]. destruct (Rle_dec 0 0); [|lra].
    unfold Rdiv in E. rewrite Rmult_0_l, atan_0, Rplus_0_l in E. pose proof (float_not_pi t F). rewrite <- sin_PI_x. apply sin_small_n0; [lra|]. rewrite Rabs_minus_sym. lra.
  Qed.
  Lemma off_axis g :
    (vx g = 0 -> vy g <> 0 -> vx (fcyl_to_cart ct st (fcart_to_cyl at2 g)) <> 0) /\
    (vx g < 0 -> vy g = 0 -> vy (fcyl_to_cart ct st (fcart_to_cyl at2 g)) <> 0) /\
    (vz g = 0 -> vx g <> 0 \/ vy g <> 0 -> vz (fsph_to_cart ct st (fcart_to_sph at2 g)) <> 0).
  Proof.
    unfold fcyl_to_cart, fcart_to_cyl, fsph_to_cart, fcart_to_sph, fsq; cbn [vx vy vz]. split; [|split].
    - intros X Y. apply prod_n0; [apply hyp_n0; right; exact Y|rewrite X; apply cos_half, Y].
    - intros X Y. apply prod_n0; [apply hyp_n0; left; lra|rewrite Y; apply sin_pi, X].
    - intros Z H. apply prod_n0; [|rewrite Z; apply cos_half, hyp_n0, H].
      apply (near_n0 _ _ _ (near_norm g)). unfold vnorm. assert (0 < vnorm2 g) by (unfold vnorm2, vdot; rewrite Z; destruct H; nra). pose proof (sqrt_lt_R0 _ H0). lra.
  Qed.
End Axes.
