(** C118: far from a wire. *)
From Coq Require Import String Reals Lra Lia List.
From Coquelicot Require Import Coquelicot.
From Verif Require Import Vec3 Calculus Deriv Integral Numpy Model_Static Spec_Static Spec_Wires Proof_Line Proof_Line2 Proof_Line3 Proof_LoopFar2 Proof_Wires.
Import ListNotations.
Open Scope R_scope.

(** *** integrals of vector functions over [0, 1] *)
Lemma vint_dot w F V : is_vec_RInt F V -> is_RInt (fun s => vdot w (F s)) 0 1 (vdot w V).
Proof.
  intros (X & Y & Z). apply (is_RInt_scal (V:=R_NormedModule) _ _ _ (vx w)) in X. apply (is_RInt_scal (V:=R_NormedModule) _ _ _ (vy w)) in Y. apply (is_RInt_scal (V:=R_NormedModule) _ _ _ (vz w)) in Z.
  exact (is_RInt_plus (V:=R_NormedModule) _ _ _ _ _ _ (is_RInt_plus (V:=R_NormedModule) _ _ _ _ _ _ X Y) Z).
Qed.
Lemma vdot_sub w a b : vdot w (vsub a b) = vdot w a - vdot w b. Proof. destruct w, a, b; unfold vdot, vsub; cbn; ring. Qed.
Lemma vdot_unit w v : vnorm w = 1 -> Rabs (vdot w v) <= vnorm v.
Proof. intros W. pose proof (cauchy_schwarz w v) as C. rewrite W in C. lra. Qed.
Lemma vint_near F P V W M : is_vec_RInt F V -> is_vec_RInt P W -> (forall s, 0 <= s <= 1 -> vnorm (vsub (F s) (P s)) <= M) -> vnorm (vsub V W) <= M.
Proof.
  intros HF HP B. assert (0 <= M) by (eapply Rle_trans; [apply vnorm_nonneg|apply (B 0); lra]).
  apply dir_norm; [|assumption]. intros w Hw. rewrite vdot_sub.
  pose proof (is_RInt_minus (V:=R_NormedModule) _ _ _ _ _ _ (vint_dot w _ _ HF) (vint_dot w _ _ HP)) as D.
  replace M with ((1 - 0) * M) by ring. refine (norm_RInt_le_const (V:=R_NormedModule) _ 0 1 _ M ltac:(lra) _ D). intros s Hs.
  change (Rabs (vdot w (F s) - vdot w (P s)) <= M). rewrite <- vdot_sub. eapply Rle_trans; [apply vdot_unit, Hw|apply B, Hs].
Qed.
Lemma vint_affine X Y F : (forall s, F s = vadd X (vscal s Y)) -> is_vec_RInt F (vadd X (vscal (1 / 2) Y)).
Proof.
  intros E. assert (A : forall x y : R, is_RInt (fun s => x + s * y) 0 1 (x + 1 / 2 * y)).
  { intros x y. pose proof (FTC (fun s => x * s + s ^ 2 / 2 * y) (fun s => x + s * y) 0 1 ltac:(lra)) as Q.
    replace (x + 1 / 2 * y) with (x * 1 + 1 ^ 2 / 2 * y - (x * 0 + 0 ^ 2 / 2 * y)) by field. apply Q.
    - intros s _. auto_derive; [exact I|]. field.
    - intros s _. apply (ex_derive_continuous (fun s => x + s * y)). auto_derive. exact I. }
  split; [|split]; (eapply is_RInt_ext; [intros s _; rewrite E; reflexivity|]); apply A.
Qed.

(** *** a wire integral against a sum over its segments *)
Lemma wire_near K G M nodes : forall V, is_wire_integral K nodes V ->
  every_segment (fun a b => forall v, is_vec_RInt (fun s => K (vsub b a) (on_seg a b s)) v -> vnorm (vsub v (G a b)) <= M * vnorm (vsub b a)) nodes ->
  vnorm (vsub V (wsum G nodes)) <= M * wire_length nodes.
Proof.
  assert (Z : vnorm (vsub vzero vzero) <= M * 0) by (replace (vsub vzero vzero) with vzero by (unfold vsub, vzero; cbn; f_equal; ring); rewrite vnorm_zero; lra).
  induction nodes as [|a nodes IH]; intros V HV HG; [cbn in HV; subst V; exact Z|].
  destruct nodes as [|b rest]; [cbn in HV; subst V; exact Z|].
  destruct HV as (v & w & Hv & Hw & ->). destruct HG as [G1 G2]. specialize (IH w Hw G2). specialize (G1 v Hv).
  change (wsum G (a :: b :: rest)) with (vadd (G a b) (wsum G (b :: rest))). change (wire_length (a :: b :: rest)) with (vnorm (vsub b a) + wire_length (b :: rest)).
  generalize dependent (wsum G (b :: rest)). generalize dependent (wire_length (b :: rest)). intros len g IH.
  replace (vsub (vadd v w) (vadd (G a b) g)) with (vadd (vsub v (G a b)) (vsub w g)) by (generalize (G a b); intros x; destruct v, w, x, g; vring).
  eapply Rle_trans; [apply vnorm_triangle|]. lra.
Qed.

Lemma within_on_seg a c x y s : vnorm (vsub x c) <= a -> vnorm (vsub y c) <= a -> 0 <= s <= 1 -> vnorm (vsub (on_seg x y s) c) <= a.
Proof.
  intros X Y S. replace (vsub (on_seg x y s) c) with (vadd (vscal (1 - s) (vsub x c)) (vscal s (vsub y c))) by (unfold on_seg; destruct x, y, c; vring).
  eapply Rle_trans; [apply vnorm_triangle|]. rewrite !vnorm_scal, !Rabs_pos_eq by lra. nra.
Qed.
Lemma within_segments a c nodes : within a c nodes -> every_segment (fun x y => vnorm (vsub x c) <= a /\ vnorm (vsub y c) <= a) nodes.
Proof.
  induction nodes as [|x nodes IH]; [intros; exact I|]. destruct nodes as [|y rest]; [intros; exact I|]. intros W. inversion W as [|? ? W1 W2]; subst. inversion W2 as [|? ? W3 W4]; subst.
  split; [split; assumption|apply IH; exact W2].
Qed.

Section Far.
Variables c p : vec3.
Variable a : R.
Let d := vsub p c.
Let r := vnorm d.
Hypothesis Hr : 2 * a <= r.
Hypothesis Hp : 0 < r.

(** the integrals of the expanded kernels over one segment *)
Definition farB (x y : vec3) : vec3 :=
  let l := vsub y x in
  vadd (vadd (vscal (/ r ^ 3) (vsub (vcross l d) (vcross l (vsub x c)))) (vscal (3 * vdot d (vsub x c) / r ^ 5) (vcross l d))) (vscal (1 / 2) (vscal (3 * vdot d l / r ^ 5) (vcross l d))).
Definition farA (x y : vec3) : vec3 :=
  let l := vsub y x in vadd (vscal (/ r + vdot d (vsub x c) / r ^ 3) l) (vscal (1 / 2) (vscal (vdot d l / r ^ 3) l)).

Lemma seg_split x y s : vsub p (on_seg x y s) = vsub d (vsub (on_seg x y s) c).
Proof. unfold d. destruct p, (on_seg x y s), c; vring. Qed.
Lemma on_seg_rel x y s : vsub (on_seg x y s) c = vadd (vsub x c) (vscal s (vsub y x)).
Proof. unfold on_seg. destruct x, y, c; vring. Qed.

Lemma farB_seg x y v : vnorm (vsub x c) <= a -> vnorm (vsub y c) <= a -> is_vec_RInt (fun s => biot_savart p (vsub y x) (on_seg x y s)) v ->
  vnorm (vsub v (farB x y)) <= 41 * a ^ 2 / r ^ 4 * vnorm (vsub y x).
Proof.
  intros X Y HV. set (l := vsub y x) in *.
  pose (P := fun s => let t := vsub (on_seg x y s) c in vadd (vscal (/ r ^ 3) (vsub (vcross l d) (vcross l t))) (vscal (3 * vdot d t / r ^ 5) (vcross l d))).
  assert (HP : is_vec_RInt P (farB x y)).
  { unfold farB. fold l. apply vint_affine. intros s. unfold P. rewrite on_seg_rel. fold l.
    replace (vdot d (vadd (vsub x c) (vscal s l))) with (vdot d (vsub x c) + s * vdot d l) by (destruct d, (vsub x c), l; unfold vdot, vadd, vscal; cbn; ring).
    replace (vcross l (vadd (vsub x c) (vscal s l))) with (vcross l (vsub x c)) by (destruct (vsub x c), l; vring).
    replace (3 * (vdot d (vsub x c) + s * vdot d l) / r ^ 5) with (3 * vdot d (vsub x c) / r ^ 5 + s * (3 * vdot d l / r ^ 5)) by (field; lra).
    generalize (3 * vdot d (vsub x c) / r ^ 5) (3 * vdot d l / r ^ 5) (/ r ^ 3) (vcross l d) (vcross l (vsub x c)). intros k1 k2 k3 w1 w2. destruct w1, w2; vring. }
  apply (vint_near _ P v _ _ HV HP). intros s Hs. unfold biot_savart, P. rewrite seg_split. apply (kr_B d _ a); try assumption. apply within_on_seg; assumption.
Qed.
Lemma farA_seg x y v : vnorm (vsub x c) <= a -> vnorm (vsub y c) <= a -> is_vec_RInt (fun s => dl_over_r p (vsub y x) (on_seg x y s)) v ->
  vnorm (vsub v (farA x y)) <= 3 * a ^ 2 / r ^ 3 * vnorm (vsub y x).
Proof.
  intros X Y HV. set (l := vsub y x) in *.
  pose (P := fun s => let t := vsub (on_seg x y s) c in vscal (/ r + vdot d t / r ^ 3) l).
  assert (HP : is_vec_RInt P (farA x y)).
  { unfold farA. fold l. apply vint_affine. intros s. unfold P. rewrite on_seg_rel. fold l.
    replace (vdot d (vadd (vsub x c) (vscal s l))) with (vdot d (vsub x c) + s * vdot d l) by (destruct d, (vsub x c), l; unfold vdot, vadd, vscal; cbn; ring).
    replace ((vdot d (vsub x c) + s * vdot d l) / r ^ 3) with (vdot d (vsub x c) / r ^ 3 + s * (vdot d l / r ^ 3)) by (field; lra).
    generalize (vdot d (vsub x c) / r ^ 3) (vdot d l / r ^ 3) (/ r). intros k1 k2 k3. destruct l; vring. }
  apply (vint_near _ P v _ _ HV HP). intros s Hs. unfold dl_over_r, P. rewrite seg_split. apply (kr_A d _ a); try assumption. apply within_on_seg; assumption.
Qed.

(** they telescope up to the vector area *)
Definition endB (x : vec3) : vec3 := let t := vsub x c in vadd (vscal (/ r ^ 3) (vcross t d)) (vscal (3 / 2 * vdot d t / r ^ 5) (vcross t d)).
Definition endA (x : vec3) : vec3 := let t := vsub x c in vadd (vscal (/ r) t) (vscal (1 / 2 * vdot d t / r ^ 3) t).
Definition dipB (S : vec3) : vec3 := vsub (vscal (3 * vdot S d / r ^ 5) d) (vscal (/ r ^ 3) S).
Definition dipA (S : vec3) : vec3 := vscal (/ r ^ 3) (vcross S d).

Lemma r2 : r ^ 2 = vdot d d. Proof. unfold r. rewrite <- vnorm2_pow. apply vnorm2_dot. Qed.
Lemma farB_tele x y : farB x y = vadd (vsub (endB y) (endB x)) (dipB (vscal (1 / 2) (vcross (vsub x c) (vsub y c)))).
Proof.
  unfold farB, endB, dipB. cbv zeta. replace (vsub y x) with (vsub (vsub y c) (vsub x c)) by (destruct x, y, c; vring). generalize (vsub y c) (vsub x c). intros t2 t1.
  replace (/ r ^ 3) with (vdot d d * / r ^ 5) by (rewrite <- r2; field; lra). unfold Rdiv. generalize (/ r ^ 5). intros k.
  destruct d as [d1 d2 d3], t1 as [x1 x2 x3], t2 as [y1 y2 y3]. unfold vadd, vsub, vscal, vcross, vdot; cbn [vx vy vz]. f_equal; field.
Qed.
Lemma farA_tele x y : farA x y = vadd (vsub (endA y) (endA x)) (dipA (vscal (1 / 2) (vcross (vsub x c) (vsub y c)))).
Proof.
  unfold farA, endA, dipA. cbv zeta. replace (vsub y x) with (vsub (vsub y c) (vsub x c)) by (destruct x, y, c; vring). generalize (vsub y c) (vsub x c). intros t2 t1.
  unfold Rdiv. generalize (/ r ^ 3) (/ r). intros k1 k2.
  destruct d as [d1 d2 d3], t1 as [x1 x2 x3], t2 as [y1 y2 y3]. unfold vadd, vsub, vscal, vcross, vdot; cbn [vx vy vz]. f_equal; field.
Qed.
Lemma wsum_tele G (T D : vec3 -> vec3) nodes : (forall x y, G x y = vadd (vsub (T y) (T x)) (D (vscal (1 / 2) (vcross (vsub x c) (vsub y c))))) ->
  (forall m n, D (vadd m n) = vadd (D m) (D n)) -> nodes <> [] ->
  wsum G nodes = vadd (vsub (T (last nodes vzero)) (T (hd vzero nodes))) (D (wire_area c nodes)).
Proof.
  intros HG HD. assert (D0 : D vzero = vzero).
  { pose proof (HD vzero vzero) as E. rewrite vadd_0_l in E. destruct (D vzero) as [x y z]. unfold vadd in E; cbn in E. apply V3_inj in E. unfold vzero. f_equal; lra. }
  induction nodes as [|x nodes IH]; [congruence|]. intros _. destruct nodes as [|y rest].
  - cbn. rewrite D0. generalize (T x). intros t. destruct t; vring.
  - change (wsum G (x :: y :: rest)) with (vadd (G x y) (wsum G (y :: rest))). rewrite IH by discriminate. rewrite HG.
    change (last (x :: y :: rest) vzero) with (last (y :: rest) vzero). change (hd vzero (x :: y :: rest)) with x. change (hd vzero (y :: rest)) with y.
    change (wire_area c (x :: y :: rest)) with (vadd (vscal (1 / 2) (vcross (vsub x c) (vsub y c))) (wire_area c (y :: rest))). rewrite HD.
    generalize (T (last (y :: rest) vzero)) (T y) (T x) (D (vscal (1 / 2) (vcross (vsub x c) (vsub y c)))) (D (wire_area c (y :: rest))). intros v1 v2 v3 v4 v5. destruct v1, v2, v3, v4, v5; vring.
Qed.
Lemma dipB_add m n : dipB (vadd m n) = vadd (dipB m) (dipB n).
Proof. unfold dipB, Rdiv. generalize (/ r ^ 5) (/ r ^ 3). intros k1 k2. destruct m, n, d. unfold vadd, vsub, vscal, vdot; cbn. f_equal; ring. Qed.
Lemma dipA_add m n : dipA (vadd m n) = vadd (dipA m) (dipA n).
Proof. unfold dipA. generalize (/ r ^ 3). intros k2. destruct m, n, d. unfold vadd, vsub, vscal, vcross; cbn. f_equal; ring. Qed.

Lemma far_wire_B nodes V : within a c nodes -> nodes <> [] -> is_wire_integral (biot_savart p) nodes V ->
  vnorm (vsub V (vadd (vsub (endB (last nodes vzero)) (endB (hd vzero nodes))) (dipB (wire_area c nodes)))) <= 41 * a ^ 2 / r ^ 4 * wire_length nodes.
Proof.
  intros W N HV. rewrite <- (wsum_tele farB endB dipB nodes farB_tele dipB_add N). apply (wire_near (biot_savart p)); [exact HV|].
  eapply every_segment_impl; [|apply within_segments, W]. intros x y [X Y] v Hv. apply farB_seg; assumption.
Qed.
Lemma far_wire_A nodes V : within a c nodes -> nodes <> [] -> is_wire_integral (dl_over_r p) nodes V ->
  vnorm (vsub V (vadd (vsub (endA (last nodes vzero)) (endA (hd vzero nodes))) (dipA (wire_area c nodes)))) <= 3 * a ^ 2 / r ^ 3 * wire_length nodes.
Proof.
  intros W N HV. rewrite <- (wsum_tele farA endA dipA nodes farA_tele dipA_add N). apply (wire_near (dl_over_r p)); [exact HV|].
  eapply every_segment_impl; [|apply within_segments, W]. intros x y [X Y] v Hv. apply farA_seg; assumption.
Qed.

Lemma md_dipB mu m n S I : vscal m n = vscal I S -> md_B (MD m n c mu) p = vscal (mu * I / (4 * PI)) (dipB S).
Proof.
  intros E. unfold md_B. cbn [md_loc md_moment md_orient md_mu]. fold d. fold r. pose proof PI_RGT_0. unfold dipB, vdiv.
  assert (E1 : m * vx n = I * vx S /\ m * vy n = I * vy S /\ m * vz n = I * vz S) by (destruct n, S; unfold vscal in E; cbn in *; apply V3_inj in E; exact E).
  destruct E1 as (E1 & E2 & E3). destruct d as [d1 d2 d3] eqn:Ed. unfold vsub, vscal, vdot; cbn [vx vy vz].
  assert (Q : forall di ni Si, m * ni = I * Si -> m * mu / (4 * PI * r ^ 3) * (3 * (d1 / r * vx n + d2 / r * vy n + d3 / r * vz n) * (di / r) - ni) =
    mu * I / (4 * PI) * (3 * (vx S * d1 + vy S * d2 + vz S * d3) / r ^ 5 * di - / r ^ 3 * Si)).
  { intros di ni Si Ei.
    replace (m * mu / (4 * PI * r ^ 3) * (3 * (d1 / r * vx n + d2 / r * vy n + d3 / r * vz n) * (di / r) - ni)) with
      (mu / (4 * PI * r ^ 5) * (3 * (d1 * (m * vx n) + d2 * (m * vy n) + d3 * (m * vz n)) * di - r ^ 2 * (m * ni))) by (field; lra).
    rewrite E1, E2, E3, Ei. field. lra. }
  f_equal; apply Q; assumption.
Qed.
Lemma md_dipA mu m n S I : vscal m n = vscal I S -> md_A (MD m n c mu) p = vscal (mu * I / (4 * PI)) (dipA S).
Proof.
  intros E. unfold md_A. cbn [md_loc md_moment md_orient md_mu]. fold d. fold r. pose proof PI_RGT_0. unfold dipA.
  transitivity (vscal (mu / (4 * PI * r ^ 3)) (vcross (vscal m n) d)).
  - destruct n, d; unfold vscal, vcross, vdiv; cbn. f_equal; field; lra.
  - rewrite E. destruct S, d; unfold vscal, vcross; cbn. f_equal; field; lra.
Qed.
Lemma end_cancel (T : vec3 -> vec3) nodes W : closed_wire nodes -> vadd (vsub (T (last nodes vzero)) (T (hd vzero nodes))) W = W.
Proof. intros E. rewrite E. generalize (T (last nodes vzero)). intros t. destruct t, W; vring. Qed.
Lemma scaled_near k V W M : vnorm (vsub V W) <= M -> vnorm (vsub (vscal k V) (vscal k W)) <= Rabs k * M.
Proof. intros H. replace (vsub (vscal k V) (vscal k W)) with (vscal k (vsub V W)) by (destruct V, W; vring). rewrite vnorm_scal. apply Rmult_le_compat_l; [apply Rabs_pos|exact H]. Qed.
Lemma k_abs mu I : Rabs (mu * I / (4 * PI)) = Rabs (mu * I) / (4 * PI).
Proof. pose proof PI_RGT_0. unfold Rdiv. rewrite Rabs_mult, (Rabs_pos_eq (/ (4 * PI))); [reflexivity|]. apply Rlt_le, Rinv_0_lt_compat. lra. Qed.

Lemma within_off nodes : within a c nodes -> every_segment (off_segment p) nodes.
Proof.
  intros W. eapply every_segment_impl; [|apply within_segments, W]. intros x y [X Y] s Hs E. pose proof (within_on_seg a c x y s X Y Hs) as N. rewrite <- E in N. fold d in N. fold r in N.
  pose proof (vnorm_nonneg (vsub x c)). lra.
Qed.
End Far.

Lemma closed_far_B s c a p m n : proper_wire (lc_nodes s) -> every_segment (off_line p) (lc_nodes s) -> closed_wire (lc_nodes s) -> within a c (lc_nodes s) ->
  lc_nodes s <> [] -> vscal m n = vscal (lc_current s) (wire_area c (lc_nodes s)) ->
  let r := vnorm (vsub p c) in 0 < r -> 2 * a <= r ->
  exists B, lc_flux_density s p = Ok (Some B) /\
    vnorm (vsub B (md_B (MD m n c (lc_mu s)) p)) <= Rabs (lc_mu s * lc_current s) / (4 * PI) * (41 * a ^ 2 / r ^ 4 * wire_length (lc_nodes s)).
Proof.
  intros P O C W N E r Hp Hr. destruct (line_biot_savart s p P O) as (V & HV & HB). eexists. split; [exact HB|].
  rewrite (md_dipB c p a Hr Hp _ _ _ _ _ E), <- k_abs. apply scaled_near.
  pose proof (far_wire_B c p a Hr Hp _ V W N HV) as F. rewrite (end_cancel (endB c p)) in F by exact C. exact F.
Qed.
Lemma closed_far_A s c a p m n : proper_wire (lc_nodes s) -> closed_wire (lc_nodes s) -> within a c (lc_nodes s) ->
  lc_nodes s <> [] -> vscal m n = vscal (lc_current s) (wire_area c (lc_nodes s)) ->
  let r := vnorm (vsub p c) in 0 < r -> 2 * a <= r ->
  exists A, lc_vector_potential s p = Ok A /\
    vnorm (vsub A (md_A (MD m n c (lc_mu s)) p)) <= Rabs (lc_mu s * lc_current s) / (4 * PI) * (3 * a ^ 2 / r ^ 3 * wire_length (lc_nodes s)).
Proof.
  intros P C W N E r Hp Hr. destruct (line_vector_potential s p P (within_off c p a Hr Hp _ W)) as (V & HV & HB). eexists. split; [exact HB|].
  rewrite (md_dipA c p a Hr Hp _ _ _ _ _ E), <- k_abs. apply scaled_near.
  pose proof (far_wire_A c p a Hr Hp _ V W N HV) as F. rewrite (end_cancel (endA c p)) in F by exact C. exact F.
Qed.
