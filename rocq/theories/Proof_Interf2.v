From Coq Require Import Reals List Arith Bool Lia Lra.
From Coquelicot Require Import Rcomplements.
From Verif Require Import Numpy Model_Interf Spec_Interf.
Import ListNotations.
Open Scope R_scope.

(** ** raster layout *)
Lemma set_nth_length : forall {A} (l : list A) n x, length (set_nth l n x) = length l.
Proof.
  intros A l n x. unfold set_nth. rewrite app_length, firstn_length.
  pose proof (skipn_length n l) as E. destruct (skipn n l) as [|y t]; cbn [length] in *; lia.
Qed.
Lemma nth_set_nth : forall {A} (l : list A) n x p d,
  nth p (set_nth l n x) d = if (Nat.eqb p n && Nat.ltb n (length l))%bool then x else nth p l d.
Proof.
  induction l as [|y l IH]; intros n x p d.
  - destruct n; cbn; destruct p; cbn; rewrite ?andb_false_r; reflexivity.
  - destruct n as [|n].
    + destruct p as [|p]; cbn; reflexivity.
    + destruct p as [|p]; cbn; [reflexivity|].
      change (nth p (set_nth l n x) d = if (Nat.eqb p n && Nat.ltb n (length l))%bool then x else nth p l d). apply IH.
Qed.
Lemma fold_set : forall {A I} (pos : I -> nat) (val : I -> A) d (l : list I) b,
  length (fold_left (fun b i => set_nth b (pos i) (val i)) l b) = length b /\
  (forall p v, (forall i, In i l -> pos i = p -> val i = v) -> In p (map pos l) -> (p < length b)%nat ->
     nth p (fold_left (fun b i => set_nth b (pos i) (val i)) l b) d = v) /\
  (forall p, ~ In p (map pos l) -> nth p (fold_left (fun b i => set_nth b (pos i) (val i)) l b) d = nth p b d).
Proof.
  intros A I pos val d l. induction l as [|i l IH]; intro b; cbn [fold_left map].
  - split; [reflexivity|]. split; [intros p v _ []|reflexivity].
  - destruct (IH (set_nth b (pos i) (val i))) as (L & V & N). rewrite set_nth_length in L, V. split; [exact L|]. split.
    + intros p v Hv Hp Lp. destruct (in_dec Nat.eq_dec p (map pos l)) as [Hin|Hin].
      * apply V; auto. intros j Hj. apply Hv. right. exact Hj.
      * rewrite N by exact Hin. destruct Hp as [Hp|Hp]; [|contradiction].
        rewrite nth_set_nth, <- Hp, Nat.eqb_refl. replace (Nat.ltb (pos i) (length b)) with true by (symmetry; apply Nat.ltb_lt; lia).
        cbn. apply Hv; [left; reflexivity|exact Hp].
    + intros p Hp. rewrite N by (intro; apply Hp; right; assumption).
      rewrite nth_set_nth. destruct (Nat.eqb_spec p (pos i)) as [->|]; [exfalso; apply Hp; left; reflexivity|reflexivity].
Qed.
Lemma in_indices : forall v i j, (i < v_rows v)%nat -> (j < v_cols v)%nat -> In (i, j) (indices v).
Proof.
  intros v i j Hi Hj. unfold indices. apply in_flat_map. exists i. split; [apply in_seq; lia|].
  apply in_map_iff. exists j. split; [reflexivity|apply in_seq; lia].
Qed.
Lemma vread_vmap : forall f v m i j, (i < v_rows v)%nat -> (j < v_cols v)%nat ->
  (v_pos v i j < length (m (v_buf v)))%nat -> vread (vmap f v m) v i j = f (vread m v i j).
Proof.
  intros f v m i j Hi Hj L. unfold vread, vmap, update. rewrite Nat.eqb_refl.
  destruct (fold_set (fun ij => v_pos v (fst ij) (snd ij))
    (fun ij => f (nth (v_pos v (fst ij) (snd ij)) (m (v_buf v)) None)) None (indices v) (m (v_buf v))) as (_ & V & _).
  apply V; [intros ij _ ->; reflexivity| |exact L].
  apply in_map_iff. exists (i, j). split; [reflexivity|apply in_indices; assumption].
Qed.
Lemma vmap_length : forall f v m, length (vmap f v m (v_buf v)) = length (m (v_buf v)).
Proof.
  intros f v m. unfold vmap, update. rewrite Nat.eqb_refl.
  apply (fold_set (fun ij => v_pos v (fst ij) (snd ij))
    (fun ij => f (nth (v_pos v (fst ij) (snd ij)) (m (v_buf v)) None)) None (indices v) (m (v_buf v))).
Qed.
Lemma vmap_other : forall f v m b, b <> v_buf v -> vmap f v m b = m b.
Proof. intros. unfold vmap, update. destruct (Nat.eqb_spec b (v_buf v)); [contradiction|reflexivity]. Qed.

Lemma stored_data_kept : forall g fresh m, fresh <> data_buf g ->
  forall b, b <> fresh -> snd (get_plot_data g fresh m) b = m b.
Proof.
  intros g fresh m F b B. unfold get_plot_data, reshapeF.
  destruct (Nat.eqb _ _); cbn [snd].
  - rewrite !vmap_other by exact B. unfold update. destruct (Nat.eqb_spec b fresh); [contradiction|reflexivity].
  - unfold update. destruct (Nat.eqb_spec b fresh); [contradiction|reflexivity].
Qed.

Lemma plot_data_ok : forall g fresh m, length (m (data_buf g)) = (shape0 g * shape1 g)%nat ->
  exists v, fst (get_plot_data g fresh m) = Ok (vectorNx g, vectorNy g, v) /\
    v_rows v = shape1 g /\ v_cols v = shape0 g /\
    (forall a b, (a < shape0 g)%nat -> (b < shape1 g)%nat ->
       shown (scaling g) (nth (a + shape0 g * b) (m (data_buf g)) None)
         (vread (snd (get_plot_data g fresh m)) v (shape1 g - 1 - b) a)).
Proof.
  intros g fresh m L. unfold get_plot_data.
  set (m0 := update m fresh (m (data_buf g))).
  assert (E0 : m0 fresh = m (data_buf g)) by (unfold m0, update; rewrite Nat.eqb_refl; reflexivity).
  unfold reshapeF. rewrite E0, L, Nat.eqb_refl.
  set (v := flipud (transpose _)). exists v. cbn [fst snd]. split; [reflexivity|]. split; [reflexivity|]. split; [reflexivity|].
  intros a b Ha Hb. set (i := (shape1 g - 1 - b)%nat).
  assert (P : v_pos v i a = (a + shape0 g * b)%nat).
  { unfold v, i. cbn. replace (shape1 g - 1 - (shape1 g - 1 - b))%nat with b by lia. reflexivity. }
  assert (B : v_buf v = fresh) by reflexivity.
  assert (Hi : (i < v_rows v)%nat) by (cbn; lia). assert (Hj : (a < v_cols v)%nat) by (cbn; lia).
  assert (Lt : (a + shape0 g * b < shape0 g * shape1 g)%nat) by nia.
  rewrite vread_vmap; [|exact Hi|exact Hj|rewrite vmap_length, B, E0, P, L; exact Lt].
  rewrite vread_vmap; [|exact Hi|exact Hj|rewrite B, E0, P, L; exact Lt].
  unfold vread. rewrite P, B, E0.
  destruct (nth (a + shape0 g * b) (m (data_buf g)) None) as [x|]; cbn [shown option_map]; [|reflexivity].
  unfold Reqb. destruct (Req_EM_T x 0); cbn; [left|right]; auto.
Qed.
Lemma plot_data_size : forall g fresh m, length (m (data_buf g)) <> (shape0 g * shape1 g)%nat ->
  fst (get_plot_data g fresh m) = Raise ValueError.
Proof.
  intros g fresh m L. unfold get_plot_data, reshapeF.
  assert (E0 : update m fresh (m (data_buf g)) fresh = m (data_buf g)) by (unfold update; rewrite Nat.eqb_refl; reflexivity).
  rewrite E0. destruct (Nat.eqb_spec (length (m (data_buf g))) (shape0 g * shape1 g)); [contradiction|reflexivity].
Qed.

Lemma cumsum_repeat : forall n x acc k d, (k < n)%nat -> nth k (cumsum_from acc (repeat x n)) d = acc + INR (S k) * x.
Proof.
  induction n as [|n IH]; intros x acc k d H; [lia|]. cbn [repeat cumsum_from]. destruct k as [|k]; [cbn; ring|].
  cbn [nth]. rewrite IH by lia. rewrite (S_INR (S k)). ring.
Qed.
Lemma cumsum_length : forall l acc, length (cumsum_from acc l) = length l.
Proof. induction l as [|x l IH]; intro acc; cbn; [reflexivity|rewrite IH; reflexivity]. Qed.
Lemma edges_nth : forall n x k, (k <= n)%nat -> nth k (0 :: cumsum_from 0 (repeat x n)) 0 = INR k * x.
Proof. intros n x [|k] H; [cbn; ring|]. cbn [nth]. rewrite cumsum_repeat by lia. ring. Qed.
Lemma nth_map_lt : forall {A B} (f : A -> B) l n d d', (n < length l)%nat -> nth n (map f l) d = f (nth n l d').
Proof. intros A B f l n d d' H. rewrite (nth_indep _ d (f d')) by (rewrite map_length; exact H). apply map_nth. Qed.
Lemma vectorNx_spec : forall g, length (vectorNx g) = S (shape0 g) /\
  forall k, (k <= shape0 g)%nat -> nth k (vectorNx g) 0 = cell_left g k.
Proof.
  intro g. unfold vectorNx. split.
  - rewrite map_length. cbn [length]. rewrite cumsum_length, repeat_length. reflexivity.
  - intros k H. rewrite (nth_map_lt _ _ _ 0 0) by (cbn [length]; rewrite cumsum_length, repeat_length; lia).
    rewrite edges_nth by exact H. unfold cell_left. ring.
Qed.
Lemma vectorNy_spec : forall g, length (vectorNy g) = S (shape1 g) /\
  forall b, (b <= shape1 g)%nat -> nth (shape1 g - b) (vectorNy g) 0 = cell_top g b.
Proof.
  intro g. unfold vectorNy. split.
  - rewrite !map_length. cbn [length]. rewrite cumsum_length, repeat_length. reflexivity.
  - intros b H. rewrite (nth_map_lt _ _ _ 0 0) by (rewrite map_length; cbn [length]; rewrite cumsum_length, repeat_length; lia).
    rewrite (nth_map_lt _ _ _ 0 0) by (cbn [length]; rewrite cumsum_length, repeat_length; lia).
    rewrite edges_nth by lia. unfold cell_top. rewrite minus_INR by exact H. ring.
Qed.

(** ** wrapping *)
Lemma fmod_spec : forall x y, 0 < y -> 0 <= fmod x y < y /\ exists k, x = fmod x y + IZR k * y.
Proof.
  intros x y H. unfold fmod. destruct (base_Int_part (x / y)) as [A B].
  assert (E : x = y * (x / y)) by (field; lra).
  set (n := IZR (Int_part (x / y))) in *. set (q := x / y) in *.
  split; [rewrite E; split; nra|].
  exists (Int_part (x / y)). fold q. fold n. ring.
Qed.
Lemma fmod_unique : forall x y r k, 0 <= r < y -> x = r + IZR k * y -> fmod x y = r.
Proof.
  intros x y r k H E. assert (Y : 0 < y) by lra. destruct (fmod_spec x y Y) as [A [k' E']].
  assert (Q : (IZR k - IZR k') * y = fmod x y - r) by lra.
  assert (D : -1 < IZR k - IZR k' < 1) by (split; nra).
  rewrite <- minus_IZR in D. destruct D as [D1 D2].
  apply lt_IZR in D1. apply lt_IZR in D2. assert (k = k') by lia. subst k'. lra.
Qed.

(** ** line of sight *)
Lemma Rleb_true : forall a b, Rleb a b = true <-> a <= b.
Proof. intros. unfold Rleb. destruct Rle_dec; split; intro; try congruence; contradiction. Qed.
Lemma in_unit_iff : forall x, in_unit x = true <-> -1 <= x <= 1.
Proof. intros. unfold in_unit. rewrite andb_true_iff, !Rleb_true. reflexivity. Qed.
Lemma deg : forall x, x * (PI / 180) = x * PI / 180. Proof. intro. unfold Rdiv. ring. Qed.

Lemma ang_arg : forall x y ox oy az,
  (sin (az * PI / 180) * sin (oy * PI / 180) * cos (ox * PI / 180) - cos (az * PI / 180) * sin (ox * PI / 180)) * (cos (x * PI / 180) * cos (y * PI / 180)) +
  (sin (az * PI / 180) * sin (oy * PI / 180) * sin (ox * PI / 180) + cos (az * PI / 180) * cos (ox * PI / 180)) * (sin (x * PI / 180) * cos (y * PI / 180)) +
  (- sin (az * PI / 180) * cos (oy * PI / 180)) * sin (y * PI / 180) =
  cos (az * PI / 180) * dot3 (east ox oy) (sphere_point x y) - sin (az * PI / 180) * dot3 (north ox oy) (sphere_point x y).
Proof. intros. unfold dot3, east, north, sphere_point. ring. Qed.

Lemma s2c2 : forall t, sin t * sin t + cos t * cos t = 1.
Proof. intro t. pose proof (sin2_cos2 t) as E. unfold Rsqr in E. exact E. Qed.
Lemma cs3 : forall a b c p q r, a * a + b * b + c * c = 1 -> p * p + q * q + r * r = 1 -> -1 <= a * p + b * q + c * r <= 1.
Proof.
  intros a b c p q r H K.
  pose proof (Rle_0_sqr (a - p)). pose proof (Rle_0_sqr (b - q)). pose proof (Rle_0_sqr (c - r)).
  pose proof (Rle_0_sqr (a + p)). pose proof (Rle_0_sqr (b + q)). pose proof (Rle_0_sqr (c + r)).
  unfold Rsqr in *. split; lra.
Qed.
Lemma ang_arg_bound : forall x y ox oy az,
  -1 <= cos (az * PI / 180) * dot3 (east ox oy) (sphere_point x y) - sin (az * PI / 180) * dot3 (north ox oy) (sphere_point x y) <= 1.
Proof.
  intros. rewrite <- ang_arg. 
  set (A := az * PI / 180). set (X := x * PI / 180). set (Y := y * PI / 180). set (U := ox * PI / 180). set (V := oy * PI / 180).
  apply cs3.
  - transitivity ((sin A * sin A) * (sin V * sin V) * (sin U * sin U + cos U * cos U) + cos A * cos A * (sin U * sin U + cos U * cos U)
      + sin A * sin A * (cos V * cos V)); [ring|]. rewrite (s2c2 U).
    transitivity (sin A * sin A * (sin V * sin V + cos V * cos V) + cos A * cos A); [ring|]. rewrite (s2c2 V).
    rewrite Rmult_1_r. apply s2c2.
  - transitivity ((sin X * sin X + cos X * cos X) * (cos Y * cos Y) + sin Y * sin Y); [ring|]. rewrite (s2c2 X).
    rewrite Rmult_1_l, Rplus_comm. apply s2c2.
Qed.
Lemma sin_acos_shift : forall t, -1 <= t <= 1 -> sin (acos t - PI / 2) = - t.
Proof.
  intros t H. rewrite sin_minus, cos_PI2, sin_PI2. rewrite cos_acos by exact H. ring.
Qed.
Lemma ang_to_gc_spec : forall x y ox oy az, exists d, ang_to_gc x y ox oy az = Some d /\ left_angle x y ox oy az d.
Proof.
  intros. unfold ang_to_gc, deg2rad. cbv zeta. rewrite !deg, ang_arg.
  set (t := cos (az * PI / 180) * _ - _).
  assert (B : -1 <= t <= 1) by apply ang_arg_bound.
  unfold arccos. rewrite (proj2 (in_unit_iff t) B). cbn [option_map].
  eexists. split; [reflexivity|]. unfold left_angle. fold t.
  pose proof (acos_bound t) as A. pose proof PI_RGT_0 as P. unfold rad2deg.
  split.
  - assert (E : acos t * (180 / PI) = 180 * (acos t / PI)) by (field; lra).
    assert (0 <= acos t / PI) by (apply Rdiv_le_0_compat; lra).
    assert (acos t / PI <= 1) by (apply Rmult_le_reg_r with PI; [lra|]; replace (acos t / PI * PI) with (acos t) by (field; lra); lra).
    rewrite E. lra.
  - replace ((acos t * (180 / PI) - 90) * PI / 180) with (acos t - PI / 2) by (field; lra).
    apply sin_acos_shift. exact B.
Qed.
Lemma left_angle_unique : forall x y ox oy az d d', left_angle x y ox oy az d -> left_angle x y ox oy az d' -> d = d'.
Proof.
  intros x y ox oy az d d' [B S] [B' S']. pose proof PI_RGT_0 as P.
  assert (E : d * PI / 180 = d' * PI / 180).
  { assert (I : forall u, -90 <= u <= 90 -> - (PI / 2) <= u * PI / 180 <= PI / 2).
    { intros u Hu. split; apply Rmult_le_reg_r with (180 / PI); try (apply Rdiv_lt_0_compat; lra).
      - replace (u * PI / 180 * (180 / PI)) with u by (field; lra). replace (- (PI / 2) * (180 / PI)) with (-90) by (field; lra). lra.
      - replace (u * PI / 180 * (180 / PI)) with u by (field; lra). replace (PI / 2 * (180 / PI)) with 90 by (field; lra). lra. }
    rewrite <- (asin_sin (d * PI / 180)) by (apply I; exact B).
    rewrite <- (asin_sin (d' * PI / 180)) by (apply I; exact B'). rewrite S, S'. reflexivity. }
  apply Rmult_eq_reg_r with (PI / 180); [|apply Rgt_not_eq; apply Rdiv_lt_0_compat; lra].
  unfold Rdiv in *. rewrite <- !Rmult_assoc. exact E.
Qed.
Lemma left_angle_ref : forall ox oy az, left_angle ox oy ox oy az 0.
Proof.
  intros. unfold left_angle. split; [lra|]. replace (0 * PI / 180) with 0 by field. rewrite sin_0.
  unfold dot3, east, north, sphere_point.
  set (X := ox * PI / 180). set (Y := oy * PI / 180).
  pose proof (s2c2 X) as E. 
  transitivity (sin (az * PI / 180) * (sin Y * cos Y * (1 - (sin X * sin X + cos X * cos X)))); [rewrite E; ring|ring].
Qed.

Lemma arctan_quot_bound : forall a b t, arctan_quot a b = Some t -> - (PI / 2) <= t <= PI / 2.
Proof.
  intros a b t. unfold arctan_quot. pose proof PI_RGT_0. destruct (Reqb b 0).
  - destruct (Rltb 0 a); [intros [= <-]; lra|]. destruct (Rltb a 0); [intros [= <-]; lra|discriminate].
  - intros [= <-]. pose proof (atan_bound (a / b)). lra.
Qed.
Lemma los_value : forall R_ h az beta d v, los_vector R_ h az beta d = Some v ->
  exists t, arctan_quot (sin ((beta - d) * (PI / 180))) (cos ((beta - d) * (PI / 180)) - R_ / (R_ + h)) = Some t /\
    v = (- cos (az * PI / 180) * sin t, sin (az * PI / 180) * sin t, cos t).
Proof.
  intros R_ h az beta d v. unfold los_vector, DEG2RAD. cbv zeta.
  destruct (arctan_quot _ _) as [t|]; [|discriminate]. intros [= <-]. exists t. split; [reflexivity|].
  pose proof PI_RGT_0 as P.
  replace ((90 - t / (PI / 180)) * (PI / 180)) with (PI / 2 - t) by (field; lra).
  replace ((360 - az) * (PI / 180)) with (- (az * PI / 180) + 2 * PI) by field.
  rewrite cos_shift, sin_shift.
  rewrite cos_plus, sin_plus, cos_2PI, sin_2PI, cos_neg, sin_neg. apply f_equal2; [apply f_equal2|]; ring.
Qed.
Lemma los_unit : forall R_ h az beta d v, los_vector R_ h az beta d = Some v ->
  unit3 v /\ horizontal_dot v (track az) = 0 /\ 0 <= up v.
Proof.
  intros R_ h az beta d v H. apply los_value in H. destruct H as (t & E & ->). apply arctan_quot_bound in E.
  unfold unit3, horizontal_dot, track, up. cbn [fst snd]. set (A := az * PI / 180). split; [|split].
  - transitivity ((sin A * sin A + cos A * cos A) * (sin t * sin t) + cos t * cos t); [ring|].
    rewrite s2c2, Rmult_1_l. apply s2c2.
  - ring.
  - apply cos_ge_0; lra.
Qed.

Lemma kappa : forall r h, 0 < r -> 0 < h -> 0 < r / (r + h) < 1.
Proof.
  intros r h Hr Hh. split; [apply Rdiv_lt_0_compat; lra|].
  apply Rmult_lt_reg_r with (r + h); [lra|]. replace (r / (r + h) * (r + h)) with r by (field; lra). lra.
Qed.
Lemma ksin_bound : forall k a, 0 < k < 1 -> -1 < k * sin a < 1.
Proof. intros k a H. pose proof (SIN_bound a). split; nra. Qed.
Lemma beta_ref_def : forall r h inc, 0 < r -> 0 < h ->
  beta_ref r h inc = Some ((inc * (PI / 180) - asin (r / (r + h) * sin (inc * (PI / 180)))) / (PI / 180)).
Proof.
  intros r h inc Hr Hh. unfold beta_ref, arcsin, DEG2RAD. cbv zeta. rewrite (Rplus_comm h r).
  pose proof (ksin_bound _ (inc * (PI / 180)) (kappa r h Hr Hh)).
  rewrite (proj2 (in_unit_iff _)) by lra. reflexivity.
Qed.
(** the denominator can only vanish where the numerator does not *)
Lemma arctan_quot_some : forall b k, 0 < k < 1 -> exists t, arctan_quot (sin b) (cos b - k) = Some t.
Proof.
  intros b k H. unfold arctan_quot, Reqb. destruct (Req_EM_T (cos b - k) 0) as [E|N]; [|eauto].
  unfold Rltb. destruct (Rlt_dec 0 (sin b)); [eauto|]. destruct (Rlt_dec (sin b) 0); [eauto|].
  exfalso. assert (sin b = 0) by lra. pose proof (s2c2 b) as S. nra.
Qed.

Definition los_at (g : interferogram) (orig yx : R * R) : option (R * R * R) :=
  match beta_ref (earth_radius g) (satellite_altitude g) (ref_incidence g),
        ang_to_gc (snd yx) (fst yx) (snd orig) (fst orig) (satellite_azimuth g) with
  | Some b, Some d => los_vector (earth_radius g) (satellite_altitude g) (satellite_azimuth g) b d
  | _, _ => None
  end.
Lemma los_at_some : forall g orig yx, orbiting g -> exists v, los_at g orig yx = Some v /\
  unit3 v /\ horizontal_dot v (track (satellite_azimuth g)) = 0 /\ 0 <= up v.
Proof.
  intros g orig yx [Hr Hh]. unfold los_at. rewrite beta_ref_def by assumption.
  destruct (ang_to_gc_spec (snd yx) (fst yx) (snd orig) (fst orig) (satellite_azimuth g)) as (d & -> & _).
  set (b := _ / (PI / 180)).
  destruct (los_vector (earth_radius g) (satellite_altitude g) (satellite_azimuth g) b d) as [v|] eqn:E.
  - exists v. split; [reflexivity|]. eapply los_unit. exact E.
  - exfalso. unfold los_vector in E. cbv zeta in E.
    destruct (arctan_quot_some ((b - d) * DEG2RAD) _ (kappa _ _ Hr Hh)) as [t T]. rewrite T in E. discriminate.
Qed.

Lemma rsequence_map_ok : forall {A B} (f : A -> result B) l r, rsequence (map f l) = Ok r ->
  length r = length l /\ forall n a, nth_error l n = Some a -> exists b, nth_error r n = Some b /\ f a = Ok b.
Proof.
  induction l as [|a l IH]; intros r H; cbn in H.
  - injection H as <-. split; [reflexivity|]. intros [|n] x E; discriminate.
  - destruct (f a) as [b|] eqn:Ef; cbn in H; [|discriminate].
    destruct (rsequence (map f l)) as [r'|] eqn:Er; cbn in H; [|discriminate]. injection H as <-.
    destruct (IH r' eq_refl) as [L N]. split; [cbn; rewrite L; reflexivity|].
    intros [|n] x E; cbn in E; [injection E as <-; exists b; auto|]. apply N. exact E.
Qed.
Lemma rsequence_map_all : forall {A B} (f : A -> result B) l, (forall a, In a l -> exists b, f a = Ok b) ->
  exists r, rsequence (map f l) = Ok r.
Proof.
  induction l as [|a l IH]; intro H; cbn; [eauto|].
  destruct (H a (or_introl eq_refl)) as [b ->]. destruct IH as [r ->]; [intros; apply H; right; assumption|]. cbn. eauto.
Qed.

Definition run_list (latlon : R -> R -> result (R * R)) (g : interferogram) (l : list (R * R)) :=
  get_LOS_vector latlon g (LList l).
Lemma los_list : forall latlon g l out, get_LOS_vector latlon g (LList l) = Ok out ->
  exists orig, latlon (ref0 g) (ref1 g) = Ok orig /\ length out = length l /\ l <> [] /\
    forall n u, nth_error l n = Some u ->
      exists yx, latlon (fst u) (snd u) = Ok yx /\ nth_error out n = Some (los_at g orig yx).
Proof.
  intros latlon g l out H. cbn in H. destruct (Reqb _ 0); cbn in H; [discriminate|].
  destruct (latlon (ref0 g) (ref1 g)) as [orig|]; cbn in H; [|discriminate].
  destruct (rsequence (map (fun u => latlon (fst u) (snd u)) l)) as [xy|] eqn:E; cbn in H; [|discriminate].
  destruct (rsequence_map_ok _ _ _ E) as [L N].
  assert (NE : xy <> []) by (intros ->; discriminate).
  assert (O : out = map (los_at g orig) xy) by (destruct xy; [contradiction|]; injection H as <-; reflexivity).
  exists orig. split; [reflexivity|]. subst out. rewrite map_length. split; [exact L|]. split.
  - intros ->. destruct xy; [contradiction|discriminate].
  - intros n u Hu. destruct (N n u Hu) as (yx & Hyx & Lyx). exists yx. split; [exact Lyx|]. apply map_nth_error. exact Hyx.
Qed.
Lemma los_list_unit : forall latlon g l out, orbiting g -> get_LOS_vector latlon g (LList l) = Ok out ->
  length out = length l /\ forall o, In o out -> exists v, o = Some v /\
    unit3 v /\ horizontal_dot v (track (satellite_azimuth g)) = 0 /\ 0 <= up v.
Proof.
  intros latlon g l out O H. destruct (los_list _ _ _ _ H) as (orig & _ & L & _ & N). split; [exact L|].
  intros o I. apply In_nth_error in I. destruct I as [n I].
  assert (Hn : (n < length l)%nat) by (rewrite <- L; apply nth_error_Some; congruence).
  destruct (nth_error l n) as [u|] eqn:Eu; [|apply nth_error_None in Eu; lia].
  destruct (N n u Eu) as (yx & _ & E). rewrite I in E. injection E as ->. apply los_at_some. exact O.
Qed.
Lemma los_ok : forall latlon g l, orbiting g -> l <> [] -> (exists o, latlon (ref0 g) (ref1 g) = Ok o) ->
  (forall u, In u l -> exists p, latlon (fst u) (snd u) = Ok p) ->
  exists out, get_LOS_vector latlon g (LList l) = Ok out.
Proof.
  intros latlon g l [Hr Hh] NE [o Ho] A. cbn. unfold Reqb. destruct (Req_EM_T _ 0); [lra|]. cbn. rewrite Ho. cbn.
  destruct (rsequence_map_all (fun u => latlon (fst u) (snd u)) l A) as [r E]. rewrite E. cbn.
  destruct r as [|x r]; [|eauto].
  apply rsequence_map_ok in E. destruct E as [E _]. destruct l; [contradiction|discriminate].
Qed.
Lemma los_rows_fail : forall latlon g l out, get_LOS_vector latlon g (LRows l) <> Ok out.
Proof.
  intros latlon g [|[e0 n0] [|[e1 n1] l]] out; cbn; try discriminate.
  destruct (Reqb _ 0); cbn; [discriminate|]. destruct (latlon (ref0 g) (ref1 g)); cbn; [|discriminate].
  destruct (latlon e0 e1); cbn; [|discriminate]. destruct (latlon n0 n1); cbn; discriminate.
Qed.
Lemma los_point : forall latlon g p, get_LOS_vector latlon g (LPoint p) = get_LOS_vector latlon g (LList [p]).
Proof. reflexivity. Qed.

(** ** incidence *)
Lemma snell : forall k a, 0 < k < 1 -> cos a <> 0 ->
  let g := asin (k * sin a) in cos (a - g) - k <> 0 /\ sin (a - g) / (cos (a - g) - k) = tan a.
Proof.
  intros k a H N g. pose proof (ksin_bound k a H) as B.
  assert (Sg : sin g = k * sin a) by (unfold g; apply sin_asin; lra).
  assert (Cg : 0 < cos g).
  { unfold g. rewrite cos_asin by lra. apply sqrt_lt_R0. unfold Rsqr. nra. }
  assert (Q : cos g - k * cos a <> 0).
  { intro E. pose proof (s2c2 g) as G. pose proof (s2c2 a) as A.
    assert (E' : cos g = k * cos a) by lra. rewrite Sg, E' in G.
    assert (k * k * (sin a * sin a + cos a * cos a) = 1) by lra. rewrite A in H0. nra. }
  rewrite sin_minus, cos_minus, Sg.
  assert (D : cos a * cos g + sin a * (k * sin a) - k = cos a * (cos g - k * cos a)).
  { pose proof (s2c2 a) as A. assert (A' : sin a * sin a = 1 - cos a * cos a) by lra.
    replace (sin a * (k * sin a)) with (k * (sin a * sin a)) by ring. rewrite A'. ring. }
  rewrite D. split; [apply Rmult_integral_contrapositive_currified; assumption|].
  unfold tan. field. split; assumption.
Qed.
Lemma los_reference : forall g orig, orbiting g -> -90 < ref_incidence g < 90 ->
  exists v, los_at g orig orig = Some v /\ up v = cos (ref_incidence g * PI / 180) /\
    horizontal_dot v (right_of (satellite_azimuth g)) = - sin (ref_incidence g * PI / 180).
Proof.
  intros g orig [Hr Hh] I. pose proof PI_RGT_0 as P. unfold los_at. rewrite beta_ref_def by assumption.
  destruct (ang_to_gc_spec (snd orig) (fst orig) (snd orig) (fst orig) (satellite_azimuth g)) as (d & -> & Ld).
  assert (d = 0) by (eapply left_angle_unique; [exact Ld|apply left_angle_ref]). subst d.
  set (k := earth_radius g / (earth_radius g + satellite_altitude g)).
  set (a := ref_incidence g * (PI / 180)).
  assert (K : 0 < k < 1) by (apply kappa; assumption).
  assert (Ia : - PI / 2 < a < PI / 2).
  { unfold a. split.
    - apply Rmult_lt_reg_r with (180 / PI); [apply Rdiv_lt_0_compat; lra|].
      replace (ref_incidence g * (PI / 180) * (180 / PI)) with (ref_incidence g) by (field; lra).
      replace (- PI / 2 * (180 / PI)) with (-90) by (field; lra). lra.
    - apply Rmult_lt_reg_r with (180 / PI); [apply Rdiv_lt_0_compat; lra|].
      replace (ref_incidence g * (PI / 180) * (180 / PI)) with (ref_incidence g) by (field; lra).
      replace (PI / 2 * (180 / PI)) with 90 by (field; lra). lra. }
  assert (Ca : 0 < cos a) by (apply cos_gt_0; lra).
  destruct (snell k a K) as [D T]; [lra|]. cbv zeta in D, T.
  set (b := (a - asin (k * sin a)) / (PI / 180)).
  assert (Eb : (b - 0) * (PI / 180) = a - asin (k * sin a)) by (unfold b; field; lra).
  destruct (los_vector (earth_radius g) (satellite_altitude g) (satellite_azimuth g) b 0) as [v|] eqn:E.
  - apply los_value in E. destruct E as (t & E & ->). rewrite Eb in E. fold k in E.
    unfold arctan_quot, Reqb in E. destruct (Req_EM_T (cos (a - asin (k * sin a)) - k) 0); [contradiction|].
    rewrite T in E. injection E as <-. rewrite atan_tan by lra.
    eexists. split; [reflexivity|]. unfold up, horizontal_dot, right_of. cbn [fst snd].
    unfold a. rewrite deg. split; [reflexivity|].
    set (A := satellite_azimuth g * PI / 180). set (s := sin (ref_incidence g * PI / 180)).
    transitivity (- (sin A * sin A + cos A * cos A) * s); [ring|]. rewrite s2c2. ring.
  - exfalso. unfold los_vector, DEG2RAD in E. cbv zeta in E. rewrite Eb in E. fold k in E.
    unfold arctan_quot, Reqb in E. destruct (Req_EM_T (cos (a - asin (k * sin a)) - k) 0); [contradiction|discriminate].
Qed.

Lemma asin_arg_deg : forall u, -90 <= u <= 90 -> - (PI / 2) <= u * PI / 180 <= PI / 2.
Proof.
  intros u Hu. pose proof PI_RGT_0. split; apply Rmult_le_reg_r with (180 / PI); try (apply Rdiv_lt_0_compat; lra).
  - replace (u * PI / 180 * (180 / PI)) with u by (field; lra). replace (- (PI / 2) * (180 / PI)) with (-90) by (field; lra). lra.
  - replace (u * PI / 180 * (180 / PI)) with u by (field; lra). replace (PI / 2 * (180 / PI)) with 90 by (field; lra). lra.
Qed.
Lemma nadir_is_beta_ref : forall g beta, orbiting g -> nadir_angle g beta ->
  beta_ref (earth_radius g) (satellite_altitude g) (ref_incidence g) = Some beta.
Proof.
  intros g beta [Hr Hh] [B S]. rewrite beta_ref_def by assumption. f_equal. pose proof PI_RGT_0 as P.
  rewrite !deg, <- S, asin_sin by (apply asin_arg_deg; exact B). field. lra.
Qed.
Lemma nadir_exists : forall g, orbiting g -> exists beta, nadir_angle g beta.
Proof.
  intros g [Hr Hh]. pose proof PI_RGT_0 as P.
  set (s := asin (earth_radius g / (earth_radius g + satellite_altitude g) * sin (ref_incidence g * PI / 180))).
  exists (ref_incidence g - s * (180 / PI)). unfold nadir_angle.
  replace (ref_incidence g - (ref_incidence g - s * (180 / PI))) with (s * (180 / PI)) by ring.
  pose proof (asin_bound (earth_radius g / (earth_radius g + satellite_altitude g) * sin (ref_incidence g * PI / 180))) as B. fold s in B.
  split.
  - split; apply Rmult_le_reg_r with (PI / 180); try (apply Rdiv_lt_0_compat; lra);
      replace (s * (180 / PI) * (PI / 180)) with s by (field; lra); lra.
  - replace (s * (180 / PI) * PI / 180) with s by (field; lra). unfold s. apply sin_asin.
    pose proof (ksin_bound _ (ref_incidence g * PI / 180) (kappa _ _ Hr Hh)). lra.
Qed.
Lemma los_points_to_satellite : forall g orig yx beta d, orbiting g -> nadir_angle g beta ->
  left_angle (snd yx) (fst yx) (snd orig) (fst orig) (satellite_azimuth g) d ->
  0 < satellite_up g (beta - d) ->
  exists v l, los_at g orig yx = Some v /\ 0 < l /\
    l * horizontal_dot v (right_of (satellite_azimuth g)) = - satellite_left g (beta - d) /\
    l * up v = satellite_up g (beta - d).
Proof.
  intros g orig yx beta d O Nb Ld V. pose proof O as [Hr Hh].
  destruct (los_at_some g orig yx O) as (v & E & _).
  unfold los_at in E. rewrite (nadir_is_beta_ref g beta O Nb) in E.
  destruct (ang_to_gc_spec (snd yx) (fst yx) (snd orig) (fst orig) (satellite_azimuth g)) as (d' & Ed & Ld').
  assert (d' = d) by (eapply left_angle_unique; eassumption). subst d'.
  exists v. unfold los_at. rewrite (nadir_is_beta_ref g beta O Nb).
  rewrite Ed in *. apply los_value in E as K. destruct K as (t & T & Ev).
  set (b := (beta - d) * PI / 180) in *. rewrite deg in T. fold b in T.
  unfold satellite_left, satellite_up in *. fold b in V. fold b.
  set (r := earth_radius g) in *. set (h := satellite_altitude g) in *.
  assert (Q : (r + h) * (cos b - r / (r + h)) = (r + h) * cos b - r) by (field; lra).
  assert (D : 0 < cos b - r / (r + h)).
  { apply Rmult_lt_reg_l with (r + h); [lra|]. rewrite Q, Rmult_0_r. exact V. }
  unfold arctan_quot, Reqb in T. destruct (Req_EM_T (cos b - r / (r + h)) 0); [lra|]. injection T as T.
  assert (Ct : 0 < cos t) by (rewrite <- T; apply cos_gt_0; pose proof (atan_bound (sin b / (cos b - r / (r + h)))); lra).
  assert (Tt : sin t = cos t * (sin b / (cos b - r / (r + h)))).
  { rewrite <- (tan_atan (sin b / (cos b - r / (r + h)))). rewrite T. unfold tan. field. lra. }
  exists (((r + h) * cos b - r) / cos t). split; [exact E|]. split; [apply Rdiv_lt_0_compat; assumption|].
  rewrite Ev. unfold horizontal_dot, right_of, up. cbn [fst snd]. split; [|field; lra].
  set (A := satellite_azimuth g * PI / 180).
  transitivity (- ((r + h) * cos b - r) / cos t * (sin A * sin A + cos A * cos A) * sin t); [field; lra|].
  rewrite s2c2, Tt, <- Q. field. split; [lra|]. split; [lra|].
  replace (cos b * (r + h) - r) with ((r + h) * cos b - r) by ring. lra.
Qed.
Lemma los_monotone : forall g orig yx1 yx2 beta d1 d2 v1 v2, orbiting g -> nadir_angle g beta ->
  left_angle (snd yx1) (fst yx1) (snd orig) (fst orig) (satellite_azimuth g) d1 ->
  left_angle (snd yx2) (fst yx2) (snd orig) (fst orig) (satellite_azimuth g) d2 ->
  0 < satellite_up g (beta - d1) -> 0 < satellite_up g (beta - d2) ->
  -90 < beta - d1 -> beta - d2 < 90 -> d2 < d1 ->
  los_at g orig yx1 = Some v1 -> los_at g orig yx2 = Some v2 ->
  horizontal_dot v2 (right_of (satellite_azimuth g)) < horizontal_dot v1 (right_of (satellite_azimuth g)).
Proof.
  intros g orig yx1 yx2 beta d1 d2 v1 v2 O Nb L1 L2 V1 V2 B1 B2 Hd E1 E2. pose proof O as [Hr Hh]. pose proof PI_RGT_0 as P.
  unfold los_at in E1, E2. rewrite (nadir_is_beta_ref g beta O Nb) in E1, E2.
  destruct (ang_to_gc_spec (snd yx1) (fst yx1) (snd orig) (fst orig) (satellite_azimuth g)) as (d & Ed & Ld).
  assert (d = d1) by (eapply left_angle_unique; eassumption). subst d. rewrite Ed in E1. clear Ed Ld.
  destruct (ang_to_gc_spec (snd yx2) (fst yx2) (snd orig) (fst orig) (satellite_azimuth g)) as (d & Ed & Ld).
  assert (d = d2) by (eapply left_angle_unique; eassumption). subst d. rewrite Ed in E2. clear Ed Ld.
  apply los_value in E1. apply los_value in E2. destruct E1 as (t1 & T1 & ->). destruct E2 as (t2 & T2 & ->).
  rewrite deg in T1, T2. unfold satellite_up in V1, V2.
  set (r := earth_radius g) in *. set (h := satellite_altitude g) in *.
  set (b1 := (beta - d1) * PI / 180) in *. set (b2 := (beta - d2) * PI / 180) in *.
  set (k := r / (r + h)) in *. assert (K : 0 < k < 1) by (apply kappa; assumption).
  assert (Q : forall b, (r + h) * (cos b - k) = (r + h) * cos b - r) by (intro; unfold k; field; lra).
  assert (D1 : 0 < cos b1 - k) by (apply Rmult_lt_reg_l with (r + h); [lra|]; rewrite Q, Rmult_0_r; exact V1).
  assert (D2 : 0 < cos b2 - k) by (apply Rmult_lt_reg_l with (r + h); [lra|]; rewrite Q, Rmult_0_r; exact V2).
  assert (Bb : - (PI / 2) < b1 /\ b1 < b2 /\ b2 < PI / 2).
  { assert (S : forall u w, u < w -> u * PI / 180 < w * PI / 180) by (intros; apply Rmult_lt_compat_r; [lra|]; apply Rmult_lt_compat_r; assumption).
    unfold b1, b2. repeat split.
    - replace (- (PI / 2)) with (-90 * PI / 180) by field. apply S. lra.
    - apply S. lra.
    - replace (PI / 2) with (90 * PI / 180) by field. apply S. lra. }
  destruct Bb as (Bl & Bm & Bu).
  assert (F : sin b1 / (cos b1 - k) < sin b2 / (cos b2 - k)).
  { set (m := (b1 + b2) / 2). set (e := (b2 - b1) / 2).
    assert (Em : b1 = m - e) by (unfold m, e; field). assert (Ep : b2 = m + e) by (unfold m, e; field).
    assert (He : 0 < e < PI / 2) by (unfold e; lra).
    assert (Hm : - (PI / 2) < m < PI / 2) by (unfold m; lra).
    assert (Cm : 0 < cos m) by (apply cos_gt_0; lra). assert (Ce : 0 < cos e) by (apply cos_gt_0; lra).
    assert (Se : 0 < sin e) by (apply sin_gt_0; lra).
    pose proof (COS_bound m) as [_ Cm1].
    assert (X : k < cos m * cos e).
    { assert (cos b1 + cos b2 = 2 * (cos m * cos e)) by (rewrite Em, Ep, cos_minus, cos_plus; ring). lra. }
    assert (Y : k * cos m < cos e) by nra.
    apply Rmult_lt_reg_r with ((cos b1 - k) * (cos b2 - k)); [apply Rmult_lt_0_compat; assumption|].
    replace (sin b1 / (cos b1 - k) * ((cos b1 - k) * (cos b2 - k))) with (sin b1 * (cos b2 - k)) by (field; lra).
    replace (sin b2 / (cos b2 - k) * ((cos b1 - k) * (cos b2 - k))) with (sin b2 * (cos b1 - k)) by (field; lra).
    apply Rminus_gt_0_lt.
    replace (sin b2 * (cos b1 - k) - sin b1 * (cos b2 - k)) with (2 * sin e * (cos e - k * cos m)).
    2: { rewrite Em, Ep, sin_plus, sin_minus, cos_plus, cos_minus.
      pose proof (s2c2 m) as S. transitivity (2 * sin e * (cos e * (sin m * sin m + cos m * cos m) - k * cos m)); [rewrite S; ring|ring]. }
    apply Rmult_lt_0_compat; lra. }
  unfold arctan_quot, Reqb in T1, T2.
  destruct (Req_EM_T (cos b1 - k) 0); [lra|]. destruct (Req_EM_T (cos b2 - k) 0); [lra|].
  injection T1 as T1. injection T2 as T2.
  assert (Lt : t1 < t2) by (rewrite <- T1, <- T2; apply atan_increasing; exact F).
  assert (A1 := atan_bound (sin b1 / (cos b1 - k))). assert (A2 := atan_bound (sin b2 / (cos b2 - k))).
  rewrite T1 in A1. rewrite T2 in A2.
  assert (Sl : sin t1 < sin t2) by (apply sin_increasing_1; lra).
  unfold horizontal_dot, right_of. cbn [fst snd]. set (A := satellite_azimuth g * PI / 180).
  replace (- cos A * sin t2 * cos A + sin A * sin t2 * - sin A) with (- (sin A * sin A + cos A * cos A) * sin t2) by ring.
  replace (- cos A * sin t1 * cos A + sin A * sin t1 * - sin A) with (- (sin A * sin A + cos A * cos A) * sin t1) by ring.
  rewrite s2c2. lra.
Qed.

(** ** in terms of the call *)
Section Call.
Variable latlon : R -> R -> result (R * R).
Variable g : interferogram.
Variables (l : list (R * R)) (out : list (option (R * R * R))).
Hypothesis call : get_LOS_vector latlon g (LList l) = Ok out.
Hypothesis orbit : orbiting g.
Lemma call_at : forall n u orig yx, latlon (ref0 g) (ref1 g) = Ok orig -> nth_error l n = Some u ->
  latlon (fst u) (snd u) = Ok yx -> nth_error out n = Some (los_at g orig yx).
Proof.
  intros n u orig yx Ho Hu Hyx. destruct (los_list _ _ _ _ call) as (o & Eo & _ & _ & N).
  rewrite Ho in Eo. injection Eo as <-. destruct (N n u Hu) as (yx' & E & F). rewrite Hyx in E. injection E as <-. exact F.
Qed.
Lemma call_reference : forall n, nth_error l n = Some (ref0 g, ref1 g) -> -90 < ref_incidence g < 90 ->
  exists v, nth_error out n = Some (Some v) /\ up v = cos (ref_incidence g * PI / 180) /\
    horizontal_dot v (right_of (satellite_azimuth g)) = - sin (ref_incidence g * PI / 180).
Proof.
  intros n Hn I. destruct (los_list _ _ _ _ call) as (o & Eo & _ & _ & N).
  rewrite (call_at n _ o o Eo Hn Eo). destruct (los_reference g o orbit I) as (v & E & K). exists v. rewrite E. auto.
Qed.
Lemma call_points_to_satellite : forall n u lat0 lon0 lat lon beta d,
  latlon (ref0 g) (ref1 g) = Ok (lat0, lon0) -> nth_error l n = Some u -> latlon (fst u) (snd u) = Ok (lat, lon) ->
  nadir_angle g beta -> left_angle lon lat lon0 lat0 (satellite_azimuth g) d -> 0 < satellite_up g (beta - d) ->
  exists v k, nth_error out n = Some (Some v) /\ 0 < k /\
    k * horizontal_dot v (right_of (satellite_azimuth g)) = - satellite_left g (beta - d) /\
    k * up v = satellite_up g (beta - d).
Proof.
  intros n u lat0 lon0 lat lon beta d Ho Hu Hp Nb Ld V.
  rewrite (call_at n u _ _ Ho Hu Hp).
  destruct (los_points_to_satellite g (lat0, lon0) (lat, lon) beta d orbit Nb Ld V) as (v & k & E & K).
  exists v, k. rewrite E. auto.
Qed.
Lemma call_monotone : forall n1 n2 u1 u2 lat0 lon0 lat1 lon1 lat2 lon2 beta d1 d2 v1 v2,
  latlon (ref0 g) (ref1 g) = Ok (lat0, lon0) ->
  nth_error l n1 = Some u1 -> latlon (fst u1) (snd u1) = Ok (lat1, lon1) ->
  nth_error l n2 = Some u2 -> latlon (fst u2) (snd u2) = Ok (lat2, lon2) ->
  nadir_angle g beta -> left_angle lon1 lat1 lon0 lat0 (satellite_azimuth g) d1 ->
  left_angle lon2 lat2 lon0 lat0 (satellite_azimuth g) d2 ->
  0 < satellite_up g (beta - d1) -> 0 < satellite_up g (beta - d2) ->
  -90 < beta - d1 -> beta - d2 < 90 -> d2 < d1 ->
  nth_error out n1 = Some (Some v1) -> nth_error out n2 = Some (Some v2) ->
  horizontal_dot v2 (right_of (satellite_azimuth g)) < horizontal_dot v1 (right_of (satellite_azimuth g)).
Proof.
  intros n1 n2 u1 u2 lat0 lon0 lat1 lon1 lat2 lon2 beta d1 d2 v1 v2 Ho Hu1 Hp1 Hu2 Hp2 Nb L1 L2 V1 V2 B1 B2 Hd E1 E2.
  rewrite (call_at n1 u1 _ _ Ho Hu1 Hp1) in E1. rewrite (call_at n2 u2 _ _ Ho Hu2 Hp2) in E2.
  injection E1 as E1. injection E2 as E2.
  exact (los_monotone g (lat0, lon0) (lat1, lon1) (lat2, lon2) beta d1 d2 v1 v2 orbit Nb L1 L2 V1 V2 B1 B2 Hd E1 E2).
Qed.
End Call.
Lemma los_batch : forall latlon g l out n u, get_LOS_vector latlon g (LList l) = Ok out -> nth_error l n = Some u ->
  exists o, nth_error out n = Some o /\ get_LOS_vector latlon g (LPoint u) = Ok [o].
Proof.
  intros latlon g l out n u H Hu. destruct (los_list _ _ _ _ H) as (orig & Eo & _ & _ & N).
  destruct (N n u Hu) as (yx & Ey & E). exists (los_at g orig yx). split; [exact E|].
  cbn in H. cbn. destruct (Reqb _ 0); cbn in *; [discriminate|]. rewrite Eo. cbn. rewrite Ey. reflexivity.
Qed.
