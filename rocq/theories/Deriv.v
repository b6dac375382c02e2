(** Syntax-directed derivative rules with explicit values, and the tactic [der]
    that applies them.  Generic mathematics: nothing here models geoana code. *)
From Coq Require Import Reals Lra.
From Coquelicot Require Import Coquelicot.
From Verif Require Import Vec3 Calculus.
Open Scope R_scope.

Lemma D_const (c x : R) : is_derive (fun _ : R => c) x 0.
Proof. apply (is_derive_const c x). Qed.
Lemma D_id (x : R) : is_derive (fun t : R => t) x 1.
Proof. apply (is_derive_id x). Qed.
Lemma D_plus (f g : R -> R)  (x a b : R) : is_derive f x a -> is_derive g x b -> is_derive (fun t => f t + g t) x (a + b).
Proof. intros; apply (is_derive_plus f g x a b); assumption. Qed.
Lemma D_minus (f g : R -> R)  (x a b : R) : is_derive f x a -> is_derive g x b -> is_derive (fun t => f t - g t) x (a - b).
Proof. intros; apply (is_derive_minus f g x a b); assumption. Qed.
Lemma D_opp (f : R -> R)  (x a : R) : is_derive f x a -> is_derive (fun t => - f t) x (- a).
Proof. intros; apply (is_derive_opp f x a); assumption. Qed.
Lemma D_mult (f g : R -> R)  (x a b : R) : is_derive f x a -> is_derive g x b -> is_derive (fun t => f t * g t) x (a * g x + f x * b).
Proof. intros. apply (is_derive_mult f g x a b); try assumption. intros; apply Rmult_comm. Qed.
Lemma D_scal (c : R) (f : R -> R)  (x a : R) : is_derive f x a -> is_derive (fun t => c * f t) x (c * a).
Proof. intros. apply (is_derive_scal f x c a); assumption. Qed.
Lemma D_inv (f : R -> R)  (x a : R) : is_derive f x a -> f x <> 0 -> is_derive (fun t => / f t) x (- a / (f x * f x)).
Proof. intros. replace (f x * f x) with ((f x)^2) by ring. apply (is_derive_inv f x a); assumption. Qed.
Lemma D_div (f g : R -> R)  (x a b : R) : is_derive f x a -> is_derive g x b -> g x <> 0 ->
  is_derive (fun t => f t / g t) x ((a * g x - f x * b) / (g x * g x)).
Proof. intros. replace (g x * g x) with ((g x)^2) by ring. apply (is_derive_div f g x a b); assumption. Qed.
Lemma D_comp (f g : R -> R)  (x a b : R) : is_derive f (g x) a -> is_derive g x b -> is_derive (fun t => f (g t)) x (b * a).
Proof. intros A B. apply (is_derive_comp f g x a b A B). Qed.
Lemma D_sqrt (f : R -> R)  (x a : R) : is_derive f x a -> 0 < f x -> is_derive (fun t => sqrt (f t)) x (a / (2 * sqrt (f x))).
Proof.
  intros A B. apply is_derive_eq with (a * / (2 * sqrt (f x))); [|reflexivity].
  apply (D_comp sqrt f); [|exact A].
  apply is_derive_Reals. apply derivable_pt_lim_sqrt. exact B.
Qed.
Lemma D_exp (f : R -> R)  (x a : R) : is_derive f x a -> is_derive (fun t => exp (f t)) x (a * exp (f x)).
Proof. intro A. apply (D_comp exp f); [|exact A]. apply is_derive_exp. Qed.
Lemma D_ln (f : R -> R)  (x a : R) : is_derive f x a -> 0 < f x -> is_derive (fun t => ln (f t)) x (a / f x).
Proof.
  intros A B. unfold Rdiv. apply (D_comp ln f); [|exact A].
  apply is_derive_Reals. apply derivable_pt_lim_ln. exact B.
Qed.
Lemma D_sin (f : R -> R)  (x a : R) : is_derive f x a -> is_derive (fun t => sin (f t)) x (a * cos (f x)).
Proof. intro A. apply (D_comp sin f); [|exact A]. apply is_derive_Reals, derivable_pt_lim_sin. Qed.
Lemma D_cos (f : R -> R)  (x a : R) : is_derive f x a -> is_derive (fun t => cos (f t)) x (a * - sin (f x)).
Proof. intro A. apply (D_comp cos f); [|exact A]. apply is_derive_Reals, derivable_pt_lim_cos. Qed.
Lemma D_atan (f : R -> R)  (x a : R) : is_derive f x a -> is_derive (fun t => atan (f t)) x (a / (1 + f x * f x)).
Proof.
  intro A. unfold Rdiv. apply (D_comp atan f); [|exact A].
  apply is_derive_eq with (/ (1 + (f x)^2)); [|f_equal; ring].
  apply is_derive_Reals. apply derivable_pt_lim_atan.
Qed.
Lemma D_pow (f : R -> R) n (x a : R) : is_derive f x a -> is_derive (fun t => f t ^ n) x (INR n * a * f x ^ (pred n)).
Proof. intro A. apply (is_derive_pow f n x a A). Qed.

(** congruence *)
Lemma D_ext (f g : R -> R)  (x a : R) : (forall t, f t = g t) -> is_derive f x a -> is_derive g x a.
Proof. intros E H. apply (is_derive_ext f g x a E H). Qed.

Lemma D_ext_loc (f g : R -> R) (x a e : R) : 0 < e -> (forall t, Rabs (t - x) < e -> f t = g t) -> is_derive f x a -> is_derive g x a.
Proof.
  intros He E H. apply (is_derive_ext_loc f g x a); [|exact H].
  exists (mkposreal e He). intros y Hy. apply E. exact Hy.
Qed.

Lemma pow_2 (x : R) : x ^ 2 = x * x. Proof. ring. Qed.

(** [der] proves [is_derive f x ?d], leaving positivity / non-zero side conditions. *)
Ltac der :=
  lazymatch goal with
  | |- is_derive (fun _ => ?c) ?x _ => apply (D_const c x)
  | |- is_derive (fun t => t) ?x _ => apply (D_id x)
  | |- is_derive (fun t => @?f t + @?g t) ?x _ => first [eassumption | apply (D_plus f g x); der]
  | |- is_derive (fun t => @?f t - @?g t) ?x _ => first [eassumption | apply (D_minus f g x); der]
  | |- is_derive (fun t => - @?f t) ?x _ => first [eassumption | apply (D_opp f x); der]
  | |- is_derive (fun t => @?f t * @?g t) ?x _ => first [eassumption |
      lazymatch f with
      | (fun _ => ?c) => apply (D_scal c g x); der
      | _ => apply (D_mult f g x); der
      end]
  | |- is_derive (fun t => @?f t / @?g t) ?x _ => first [eassumption | apply (D_div f g x); [der|der|]]
  | |- is_derive (fun t => / @?f t) ?x _ => first [eassumption | apply (D_inv f x); [der|]]
  | |- is_derive (fun t => sqrt (@?f t)) ?x _ => first [eassumption | apply (D_sqrt f x); [der|]]
  | |- is_derive (fun t => exp (@?f t)) ?x _ => first [eassumption | apply (D_exp f x); der]
  | |- is_derive (fun t => ln (@?f t)) ?x _ => first [eassumption | apply (D_ln f x); [der|]]
  | |- is_derive (fun t => sin (@?f t)) ?x _ => first [eassumption | apply (D_sin f x); der]
  | |- is_derive (fun t => cos (@?f t)) ?x _ => first [eassumption | apply (D_cos f x); der]
  | |- is_derive (fun t => atan (@?f t)) ?x _ => first [eassumption | apply (D_atan f x); der]
  | |- is_derive (fun t => @?f t ^ ?n) ?x _ => first [eassumption | apply (D_pow f n x); der]
  | |- _ => eassumption
  end.

(** translation of fields *)
Lemma is_derive_shift (f : R -> R) (a x d : R) : is_derive f (x - a) d -> is_derive (fun t => f (t - a)) x d.
Proof.
  intro H. eapply is_derive_eq. { apply (D_comp f (fun t => t - a)); [exact H|der]. } ring.
Qed.

Lemma is_grad_shift f p0 p g : is_grad f (vsub p p0) g -> is_grad (fun q => f (vsub q p0)) p g.
Proof.
  intros [A [B C]]. destruct p as [x y z], p0 as [a b c].
  unfold is_grad, is_dx, is_dy, is_dz, vsub in *; simpl in *.
  split; [|split].
  - apply (is_derive_shift (fun t => f (V3 t (y - b) (z - c))) a); exact A.
  - apply (is_derive_shift (fun t => f (V3 (x - a) t (z - c))) b); exact B.
  - apply (is_derive_shift (fun t => f (V3 (x - a) (y - b) t)) c); exact C.
Qed.

Lemma is_jac_shift F p0 p J : is_jac F (vsub p p0) J -> is_jac (fun q => F (vsub q p0)) p J.
Proof.
  intros [A [B C]]. split; [|split].
  - exact (is_grad_shift (fun q => vx (F q)) p0 p _ A).
  - exact (is_grad_shift (fun q => vy (F q)) p0 p _ B).
  - exact (is_grad_shift (fun q => vz (F q)) p0 p _ C).
Qed.

Lemma is_curl_shift F p0 p c : is_curl F (vsub p p0) c -> is_curl (fun q => F (vsub q p0)) p c.
Proof. intros [J [A B]]. exists J; split; [apply is_jac_shift; exact A | exact B]. Qed.
Lemma is_div_shift F p0 p c : is_div F (vsub p p0) c -> is_div (fun q => F (vsub q p0)) p c.
Proof. intros [J [A B]]. exists J; split; [apply is_jac_shift; exact A | exact B]. Qed.

(** the distance to the origin *)
Lemma norm_dx x y z : V3 x y z <> vzero ->
  is_derive (fun t => vnorm (V3 t y z)) x (x / vnorm (V3 x y z)).
Proof.
  intro H. pose proof (vnorm_pos _ H). pose proof (vnorm2_pos _ H). unfold vnorm, vnorm2 in *; simpl in *.
  eapply is_derive_eq. { der. lra. } field. lra.
Qed.
Lemma norm_dy x y z : V3 x y z <> vzero ->
  is_derive (fun t => vnorm (V3 x t z)) y (y / vnorm (V3 x y z)).
Proof.
  intro H. pose proof (vnorm_pos _ H). pose proof (vnorm2_pos _ H). unfold vnorm, vnorm2 in *; simpl in *.
  eapply is_derive_eq. { der. lra. } field. lra.
Qed.
Lemma norm_dz x y z : V3 x y z <> vzero ->
  is_derive (fun t => vnorm (V3 x y t)) z (z / vnorm (V3 x y z)).
Proof.
  intro H. pose proof (vnorm_pos _ H). pose proof (vnorm2_pos _ H). unfold vnorm, vnorm2 in *; simpl in *.
  eapply is_derive_eq. { der. lra. } field. lra.
Qed.

Ltac split_grad := unfold is_grad, is_dx, is_dy, is_dz; cbn [vx vy vz m0 m1 m2]; refine (conj _ (conj _ _)).
Ltac split_jac := unfold is_jac, is_grad, is_dx, is_dy, is_dz; cbn [vx vy vz m0 m1 m2];
  refine (conj (conj _ (conj _ _)) (conj (conj _ (conj _ _)) (conj _ (conj _ _)))).

(** locality: only the values in a small ball around [p] matter *)
Definition near (p : vec3) (P : vec3 -> Prop) : Prop :=
  exists e, 0 < e /\ forall q, vnorm (vsub q p) < e -> P q.

Lemma vnorm_axis_x t : vnorm (V3 t 0 0) = Rabs t.
Proof. apply vnorm_unique; [apply Rabs_pos|]. rewrite <- Rabs_mult, Rabs_pos_eq by nra. unfold vnorm2; simpl; ring. Qed.
Lemma vnorm_axis_y t : vnorm (V3 0 t 0) = Rabs t.
Proof. apply vnorm_unique; [apply Rabs_pos|]. rewrite <- Rabs_mult, Rabs_pos_eq by nra. unfold vnorm2; simpl; ring. Qed.
Lemma vnorm_axis_z t : vnorm (V3 0 0 t) = Rabs t.
Proof. apply vnorm_unique; [apply Rabs_pos|]. rewrite <- Rabs_mult, Rabs_pos_eq by nra. unfold vnorm2; simpl; ring. Qed.

Lemma is_grad_ext_near f g p d : near p (fun q => f q = g q) -> is_grad f p d -> is_grad g p d.
Proof.
  intros [e [He E]] [A [B C]]. destruct p as [x y z]. unfold is_grad, is_dx, is_dy, is_dz in *; simpl in *.
  split; [|split].
  - eapply D_ext_loc; [exact He| |exact A]. intros t Ht. apply E.
    replace (vsub (V3 t y z) (V3 x y z)) with (V3 (t - x) 0 0) by (veq; ring). rewrite vnorm_axis_x; exact Ht.
  - eapply D_ext_loc; [exact He| |exact B]. intros t Ht. apply E.
    replace (vsub (V3 x t z) (V3 x y z)) with (V3 0 (t - y) 0) by (veq; ring). rewrite vnorm_axis_y; exact Ht.
  - eapply D_ext_loc; [exact He| |exact C]. intros t Ht. apply E.
    replace (vsub (V3 x y t) (V3 x y z)) with (V3 0 0 (t - z)) by (veq; ring). rewrite vnorm_axis_z; exact Ht.
Qed.

Lemma is_jac_ext_near F G p J : near p (fun q => F q = G q) -> is_jac F p J -> is_jac G p J.
Proof.
  intros [e [He E]] [A [B C]].
  split; [|split];
  (eapply is_grad_ext_near; [|eassumption]; exists e; split; [exact He|]; intros q Hq; rewrite (E q Hq); reflexivity).
Qed.

Lemma vnorm_triangle_inv a b : Rabs (vnorm a - vnorm b) <= vnorm (vsub a b).
Proof.
  apply Rabs_le. split.
  - pose proof (vnorm_triangle a (vsub b a)) as H. replace (vadd a (vsub b a)) with b in H by (destruct a, b; veq; ring).
    rewrite (vnorm_sub_sym b a) in H. lra.
  - pose proof (vnorm_triangle b (vsub a b)) as H. replace (vadd b (vsub a b)) with a in H by (destruct a, b; veq; ring). lra.
Qed.

Lemma near_norm_gt p p0 R0 : R0 < vnorm (vsub p p0) -> near p (fun q => R0 < vnorm (vsub q p0)).
Proof.
  intro H. exists (vnorm (vsub p p0) - R0). split; [lra|]. intros q Hq.
  pose proof (vnorm_triangle_inv (vsub p p0) (vsub q p0)) as T.
  replace (vsub (vsub p p0) (vsub q p0)) with (vsub p q) in T by (destruct p, q, p0; veq; ring).
  rewrite (vnorm_sub_sym p q) in T. pose proof (Rle_abs (vnorm (vsub p p0) - vnorm (vsub q p0))). lra.
Qed.

Lemma near_norm_lt p p0 R0 : vnorm (vsub p p0) < R0 -> near p (fun q => vnorm (vsub q p0) < R0).
Proof.
  intro H. exists (R0 - vnorm (vsub p p0)). split; [lra|]. intros q Hq.
  pose proof (vnorm_triangle_inv (vsub q p0) (vsub p p0)) as T.
  replace (vsub (vsub q p0) (vsub p p0)) with (vsub q p) in T by (destruct p, q, p0; veq; ring).
  pose proof (Rle_abs (vnorm (vsub q p0) - vnorm (vsub p p0))). lra.
Qed.

Lemma near_impl p (P Q : vec3 -> Prop) : (forall q, P q -> Q q) -> near p P -> near p Q.
Proof. intros I [e [He E]]. exists e; split; auto. Qed.

Lemma near_and p (P Q : vec3 -> Prop) : near p P -> near p Q -> near p (fun q => P q /\ Q q).
Proof.
  intros [e [He E]] [e' [He' E']]. exists (Rmin e e'). split; [apply Rmin_pos; assumption|].
  intros q Hq. split; [apply E|apply E']; eapply Rlt_le_trans; try exact Hq; [apply Rmin_l|apply Rmin_r].
Qed.

Lemma near_self p (P : vec3 -> Prop) : near p P -> P p.
Proof.
  intros [e [He E]]. apply E. replace (vsub p p) with vzero by (destruct p; veq; ring). rewrite vnorm_zero. exact He.
Qed.

(** continuity *)
Lemma is_cont_radial (h : R -> R) p p0 : continuity_pt h (vnorm (vsub p p0)) -> is_cont (fun q => h (vnorm (vsub q p0))) p.
Proof.
  intros H e He. destruct (proj1 (continuity_pt_locally _ _) H (mkposreal e He)) as [d Hd].
  exists d. split; [apply cond_pos|]. intros q Hq. apply Hd.
  change (Rabs (vnorm (vsub q p0) - vnorm (vsub p p0)) < d).
  eapply Rle_lt_trans; [apply vnorm_triangle_inv|].
  replace (vsub (vsub q p0) (vsub p p0)) with (vsub q p) by (destruct p, q, p0; veq; ring). exact Hq.
Qed.

Lemma coord_le_norm v : Rabs (vx v) <= vnorm v /\ Rabs (vy v) <= vnorm v /\ Rabs (vz v) <= vnorm v.
Proof.
  destruct v as [x y z]; simpl. unfold vnorm, vnorm2; simpl.
  repeat split; rewrite <- sqrt_Rsqr_abs; apply sqrt_le_1_alt; unfold Rsqr; nra.
Qed.

Lemma is_cont_coord p p0 : is_cont (fun q => vx (vsub q p0)) p /\ is_cont (fun q => vy (vsub q p0)) p /\ is_cont (fun q => vz (vsub q p0)) p.
Proof.
  repeat split; intros e He; exists e; (split; [exact He|]); intros q Hq;
  destruct (coord_le_norm (vsub q p)) as [A [B C]];
  (eapply Rle_lt_trans; [|exact Hq]); destruct q, p, p0; simpl in *;
  [eapply Rle_trans; [|exact A] | eapply Rle_trans; [|exact B] | eapply Rle_trans; [|exact C]];
  right; f_equal; ring.
Qed.

Lemma is_cont_mult f g p : is_cont f p -> is_cont g p -> is_cont (fun q => f q * g q) p.
Proof.
  intros F G e He.
  set (M := 1 + Rabs (f p) + Rabs (g p)).
  assert (HM : 0 < M) by (unfold M; pose proof (Rabs_pos (f p)); pose proof (Rabs_pos (g p)); lra).
  set (e1 := Rmin 1 (e / (2 * M))).
  assert (H1 : 0 < e1) by (apply Rmin_pos; [lra|]; apply Rdiv_lt_0_compat; lra).
  destruct (F e1 H1) as [d1 [D1 E1]], (G e1 H1) as [d2 [D2 E2]].
  exists (Rmin d1 d2). split; [apply Rmin_pos; assumption|]. intros q Hq.
  specialize (E1 q (Rlt_le_trans _ _ _ Hq (Rmin_l _ _))).
  specialize (E2 q (Rlt_le_trans _ _ _ Hq (Rmin_r _ _))).
  replace (f q * g q - f p * g p) with ((f q - f p) * g p + (f p) * (g q - g p) + (f q - f p) * (g q - g p)) by ring.
  eapply Rle_lt_trans; [apply Rabs_triang|]. eapply Rle_lt_trans; [apply Rplus_le_compat_r, Rabs_triang|].
  rewrite !Rabs_mult.
  pose proof (Rabs_pos (f p)); pose proof (Rabs_pos (g p)); pose proof (Rabs_pos (f q - f p)); pose proof (Rabs_pos (g q - g p)).
  assert (L1 : e1 <= 1) by apply Rmin_l. assert (L2 : e1 <= e / (2 * M)) by apply Rmin_r.
  assert (L3 : e1 * M <= e / 2).
  { apply Rmult_le_compat_r with (r := M) in L2; [|lra]. replace (e / (2 * M) * M) with (e / 2) in L2 by (field; lra). exact L2. }
  unfold M in L3.
  assert (Rabs (f q - f p) * Rabs (g p) <= e1 * Rabs (g p)) by (apply Rmult_le_compat_r; lra).
  assert (Rabs (f p) * Rabs (g q - g p) <= Rabs (f p) * e1) by (apply Rmult_le_compat_l; lra).
  assert (Rabs (f q - f p) * Rabs (g q - g p) <= e1 * 1) by (apply Rmult_le_compat; lra).
  lra.
Qed.

Lemma is_cont_ext f g p : (forall q, f q = g q) -> is_cont f p -> is_cont g p.
Proof. intros E H e He. destruct (H e He) as [d [D K]]. exists d; split; [exact D|]. intros q Hq. rewrite <- !E. auto. Qed.

(** gluing two continuous functions at [R0] *)
Lemma glue_continuous (f g : R -> R) R0 x :
  (R0 <= x -> continuity_pt f x) -> (x <= R0 -> continuity_pt g x) -> f R0 = g R0 ->
  continuity_pt (fun t => if Rlt_dec R0 t then f t else g t) x.
Proof.
  intros F G E. apply continuity_pt_locally. intro eps.
  destruct (Rtotal_order x R0) as [L|[L|L]].
  - pose proof (proj1 (continuity_pt_locally _ _) (G (Rlt_le _ _ L)) eps) as [d Hd].
    assert (P : 0 < Rmin d (R0 - x)) by (apply Rmin_pos; [apply cond_pos|lra]).
    exists (mkposreal _ P). intros y Hy. change (Rabs (y - x) < Rmin d (R0 - x)) in Hy.
    pose proof (Rmin_l d (R0 - x)); pose proof (Rmin_r d (R0 - x)). pose proof (Rle_abs (y - x)).
    destruct (Rlt_dec R0 y); [lra|]. destruct (Rlt_dec R0 x); [lra|].
    apply Hd. change (Rabs (y - x) < d). lra.
  - subst x. pose proof (proj1 (continuity_pt_locally _ _) (F (Rle_refl _)) eps) as [d Hd].
    pose proof (proj1 (continuity_pt_locally _ _) (G (Rle_refl _)) eps) as [d' Hd'].
    assert (P : 0 < Rmin d d') by (apply Rmin_pos; apply cond_pos).
    exists (mkposreal _ P). intros y Hy. change (Rabs (y - R0) < Rmin d d') in Hy.
    pose proof (Rmin_l d d'); pose proof (Rmin_r d d').
    destruct (Rlt_dec R0 R0); [lra|]. destruct (Rlt_dec R0 y).
    + rewrite <- E. apply Hd. change (Rabs (y - R0) < d). lra.
    + apply Hd'. change (Rabs (y - R0) < d'). lra.
  - pose proof (proj1 (continuity_pt_locally _ _) (F (Rlt_le _ _ L)) eps) as [d Hd].
    assert (P : 0 < Rmin d (x - R0)) by (apply Rmin_pos; [apply cond_pos|lra]).
    exists (mkposreal _ P). intros y Hy. change (Rabs (y - x) < Rmin d (x - R0)) in Hy.
    pose proof (Rmin_l d (x - R0)); pose proof (Rmin_r d (x - R0)). pose proof (Rle_abs (- (y - x))). rewrite Rabs_Ropp in *.
    destruct (Rlt_dec R0 y); [|lra]. destruct (Rlt_dec R0 x); [|lra].
    apply Hd. change (Rabs (y - x) < d). lra.
Qed.

Lemma derive_continuity (f : R -> R) (x d : R) : is_derive f x d -> continuity_pt f x.
Proof. intro H. apply continuity_pt_filterlim. apply (ex_derive_continuous f x). exists d; exact H. Qed.
