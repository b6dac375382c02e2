(** Neumann's double integral is symmetric: arcs. *)
From Coq Require Import Reals List Lra.
From Coquelicot Require Import Coquelicot.
From Verif Require Import Vec3 Calculus Fubini Spec_Static Spec_Loop Spec_Linkage.
Import ListNotations.
Open Scope R_scope.

Record arc : Type := Arc { ap : R -> vec3; ad : R -> vec3; alo : R; ahi : R }.
Definition vcont (f : R -> vec3) : Prop := forall t, continuous (fun s => vx (f s)) t /\ continuous (fun s => vy (f s)) t /\ continuous (fun s => vz (f s)) t.
Definition good (g : arc) : Prop := alo g <= ahi g /\ vcont (ap g) /\ vcont (ad g).
Definition apart (g h : arc) : Prop := forall s t, alo g <= s <= ahi g -> alo h <= t <= ahi h -> ap g s <> ap h t.
Definition ker (g h : arc) (s t : R) : R := vdot (ad g s) (ad h t) / vnorm (vsub (ap h t) (ap g s)).
Definition neu (g h : arc) : R := RInt (fun t => RInt (fun s => ker g h s t) (alo g) (ahi g)) (alo h) (ahi h).

Lemma ker_sym g h s t : ker g h s t = ker h g t s.
Proof.
  unfold ker. f_equal.
  - destruct (ad g s), (ad h t); unfold vdot; cbn; ring.
  - destruct (ap g s) as [x y z], (ap h t) as [x' y' z']. unfold vnorm, vnorm2, vsub; cbn. f_equal. ring.
Qed.

Lemma c2_x (f : R -> R) x y : continuous f x -> continuity_2d_pt (fun u _ => f u) x y.
Proof.
  intros H. apply continuity_pt_filterlim in H. intros eps. destruct (H eps (cond_pos eps)) as [d [D1 D2]]. exists (mkposreal d D1). intros u v Hu _. cbn in Hu.
  destruct (Req_dec u x) as [->|N]; [rewrite Rminus_eq_0, Rabs_R0; apply cond_pos|]. apply (D2 u). split; [split; [exact I|congruence]|exact Hu].
Qed.
Lemma c2_y (f : R -> R) x y : continuous f y -> continuity_2d_pt (fun _ v => f v) x y.
Proof. intros H. exact (c2_swap (fun u _ => f u) y x (c2_x f y x H)). Qed.
Lemma c2_sqrt f x y : continuity_2d_pt f x y -> 0 < f x y -> continuity_2d_pt (fun u v => sqrt (f u v)) x y.
Proof. intros H P. apply (continuity_1d_2d_pt_comp sqrt f); [apply continuity_pt_filterlim, continuous_sqrt; exact P|exact H]. Qed.

Lemma ker_cont g h s t : good g -> good h -> ap g s <> ap h t -> continuity_2d_pt (ker g h) s t.
Proof.
  intros [_ [G1 G2]] [_ [H1 H2]] N. unfold ker, Rdiv.
  destruct (G1 s) as [a1 [a2 a3]], (G2 s) as [b1 [b2 b3]], (H1 t) as [c1 [c2 c3]], (H2 t) as [d1 [d2 d3]].
  assert (Q : 0 < vnorm2 (vsub (ap h t) (ap g s))).
  { apply vnorm2_pos. intros Z. apply N. destruct (ap g s) as [x y z], (ap h t) as [x' y' z']. unfold vsub, vzero in Z; cbn in Z. injection Z; intros. f_equal; lra. }
  apply continuity_2d_pt_mult.
  - unfold vdot. repeat apply continuity_2d_pt_plus; apply continuity_2d_pt_mult; first [apply (c2_x (fun u => vx (ad g u))); assumption|apply (c2_x (fun u => vy (ad g u))); assumption|apply (c2_x (fun u => vz (ad g u))); assumption|apply (c2_y (fun u => vx (ad h u))); assumption|apply (c2_y (fun u => vy (ad h u))); assumption|apply (c2_y (fun u => vz (ad h u))); assumption].
  - apply continuity_2d_pt_inv; [|unfold vnorm; apply Rgt_not_eq, sqrt_lt_R0; exact Q].
    unfold vnorm. apply c2_sqrt; [|exact Q]. unfold vnorm2, vdot, vsub. cbn [vx vy vz].
    assert (X : continuity_2d_pt (fun u v => vx (ap h v) - vx (ap g u)) s t) by (apply continuity_2d_pt_minus; [apply (c2_y (fun u => vx (ap h u)))|apply (c2_x (fun u => vx (ap g u)))]; assumption).
    assert (Y : continuity_2d_pt (fun u v => vy (ap h v) - vy (ap g u)) s t) by (apply continuity_2d_pt_minus; [apply (c2_y (fun u => vy (ap h u)))|apply (c2_x (fun u => vy (ap g u)))]; assumption).
    assert (Z : continuity_2d_pt (fun u v => vz (ap h v) - vz (ap g u)) s t) by (apply continuity_2d_pt_minus; [apply (c2_y (fun u => vz (ap h u)))|apply (c2_x (fun u => vz (ap g u)))]; assumption).
    apply (continuity_2d_pt_plus (fun u v => (vx (ap h v) - vx (ap g u)) * (vx (ap h v) - vx (ap g u)) + (vy (ap h v) - vy (ap g u)) * (vy (ap h v) - vy (ap g u))) (fun u v => (vz (ap h v) - vz (ap g u)) * (vz (ap h v) - vz (ap g u)))).
    + apply (continuity_2d_pt_plus (fun u v => (vx (ap h v) - vx (ap g u)) * (vx (ap h v) - vx (ap g u))) (fun u v => (vy (ap h v) - vy (ap g u)) * (vy (ap h v) - vy (ap g u)))); apply continuity_2d_pt_mult; assumption.
    + apply continuity_2d_pt_mult; assumption.
Qed.

Lemma neu_outer g h : good g -> good h -> apart g h -> is_RInt (fun t => RInt (fun s => ker g h s t) (alo g) (ahi g)) (alo h) (ahi h) (neu g h).
Proof.
  intros G H A. apply (rect_outer (fun t s => ker g h s t)); [apply H|apply G|]. intros t s Ht Hs. apply (c2_swap (ker g h)). apply ker_cont; auto.
Qed.
Lemma neu_sym g h : good g -> good h -> apart g h -> neu g h = neu h g.
Proof.
  intros G H A. unfold neu. rewrite (fubini (fun t s => ker g h s t)); [|apply H|apply G|intros t s Ht Hs; apply (c2_swap (ker g h)); apply ker_cont; auto].
  apply RInt_ext. intros t _. apply RInt_ext. intros s _. apply ker_sym.
Qed.

(** *** sums over arcs *)
Fixpoint asum (f : arc -> R) (gs : list arc) : R := match gs with [] => 0 | g :: gs => f g + asum f gs end.
Lemma asum_scal k f gs : asum (fun g => k * f g) gs = k * asum f gs.
Proof. induction gs as [|g gs IH]; cbn; [ring|]. rewrite IH. ring. Qed.
Lemma asum_plus f e gs : asum (fun g => f g + e g) gs = asum f gs + asum e gs.
Proof. induction gs as [|g gs IH]; cbn; [ring|]. rewrite IH. ring. Qed.
Lemma asum_ext f e gs : (forall g, In g gs -> f g = e g) -> asum f gs = asum e gs.
Proof. induction gs as [|g gs IH]; cbn; [reflexivity|]. intros H. rewrite (H g), IH; auto. Qed.
Lemma asum_zero gs : asum (fun _ => 0) gs = 0.
Proof. induction gs as [|g gs IH]; cbn; [reflexivity|]. rewrite IH. ring. Qed.
Lemma asum_swap (f : arc -> arc -> R) gs hs : asum (fun h => asum (fun g => f g h) gs) hs = asum (fun g => asum (fun h => f g h) hs) gs.
Proof. induction gs as [|g gs IH]; cbn; [apply asum_zero|]. rewrite asum_plus, IH. reflexivity. Qed.

Definition link (k : R) (gs : list arc) (F : vec3 -> vec3) (h : arc) : Prop :=
  forall t, alo h <= t <= ahi h -> vdot (F (ap h t)) (ad h t) = k * asum (fun g => RInt (fun s => ker g h s t) (alo g) (ahi g)) gs.

Lemma arc_circ k gs F h : List.Forall good gs -> good h -> (forall g, In g gs -> apart g h) -> link k gs F h ->
  is_RInt (fun t => vdot (F (ap h t)) (ad h t)) (alo h) (ahi h) (k * asum (fun g => neu g h) gs).
Proof.
  intros G H A L. apply (is_RInt_ext (fun t => k * asum (fun g => RInt (fun s => ker g h s t) (alo g) (ahi g)) gs)).
  { destruct H as [H _]. rewrite Rmin_left, Rmax_right by exact H. intros t Ht. symmetry. apply L. lra. }
  apply (is_RInt_scal (V:=R_NormedModule)). clear L. induction gs as [|g gs IH]; cbn.
  - pose proof (is_RInt_const (V:=R_NormedModule) (alo h) (ahi h) 0) as Z. change (is_RInt (fun _ => 0) (alo h) (ahi h) ((ahi h - alo h) * 0)) in Z. rewrite Rmult_0_r in Z. exact Z.
  - inversion G; subst. apply (is_RInt_plus (V:=R_NormedModule)); [apply neu_outer; auto; apply A; left; reflexivity|]. apply IH; [assumption|]. intros; apply A; right; assumption.
Qed.
Lemma neumann gs hs : List.Forall good gs -> List.Forall good hs -> (forall g h, In g gs -> In h hs -> apart g h) ->
  asum (fun h => asum (fun g => neu g h) gs) hs = asum (fun g => asum (fun h => neu h g) hs) gs.
Proof.
  intros G H A. rewrite asum_swap. apply asum_ext. intros g Ig. apply asum_ext. intros h Ih. apply neu_sym; [exact (proj1 (List.Forall_forall _ _) G g Ig)|exact (proj1 (List.Forall_forall _ _) H h Ih)|auto].
Qed.
Lemma apart_sym g h : apart g h -> apart h g.
Proof. intros A s t Hs Ht E. exact (A t s Ht Hs (eq_sym E)). Qed.

(** *** segments and circles are arcs *)
Definition seg_arc (a b : vec3) : arc := Arc (on_seg a b) (fun _ => vsub b a) 0 1.
Definition ring_arc (c u v : vec3) (a : R) : arc := Arc (circle c u v a) (circle_dl u v a) 0 (2 * PI).
Fixpoint arcs (nodes : list vec3) : list arc :=
  match nodes with a :: ((b :: _) as rest) => seg_arc a b :: arcs rest | _ => [] end.
Lemma seg_good a b : good (seg_arc a b).
Proof.
  split; [cbn; lra|]. split; intros t; cbn; repeat split; try apply continuous_const;
    (apply (continuous_plus (V:=R_NormedModule)); [apply continuous_const|]; apply (continuous_mult (K:=R_AbsRing)); [apply continuous_id|apply continuous_const]).
Qed.
Lemma ring_good c u v a : good (ring_arc c u v a).
Proof.
  pose proof PI_RGT_0. split; [cbn; lra|].
  split; intros t; cbn; repeat split; (apply (ex_derive_continuous (V:=R_NormedModule)); auto_derive; exact I).
Qed.
Lemma arcs_good nodes : List.Forall good (arcs nodes).
Proof. induction nodes as [|a [|b rest] IH]; cbn; constructor; [apply seg_good|exact IH]. Qed.
Lemma arcs_each P nodes : every_segment (fun a b => P (seg_arc a b)) nodes <-> List.Forall P (arcs nodes).
Proof.
  induction nodes as [|a [|b rest] IH]; cbn [every_segment arcs]; [split; constructor|split; constructor|].
  rewrite IH. split; [intros []; constructor; assumption|intros H; inversion H; auto].
Qed.
Lemma circ_arcs F (J : arc -> R) nodes : (forall h, In h (arcs nodes) -> is_RInt (fun t => vdot (F (ap h t)) (ad h t)) (alo h) (ahi h) (J h)) ->
  is_circulation F nodes (asum J (arcs nodes)).
Proof.
  induction nodes as [|a [|b rest] IH]; cbn [is_circulation arcs asum]; [reflexivity|reflexivity|]. intros H.
  exists (J (seg_arc a b)), (asum J (arcs (b :: rest))). split; [exact (H _ (or_introl eq_refl))|]. split; [|reflexivity]. apply IH. intros h Ih. apply H. right. exact Ih.
Qed.
Lemma dlr_dot w q dl x : vdot (dl_over_r q dl x) w = vdot dl w / vnorm (vsub q x).
Proof. unfold dl_over_r, vdot, vscal, Rdiv. cbn. ring. Qed.
Lemma vint_dot_r F V w : is_vec_RInt F V -> is_RInt (fun s => vdot (F s) w) 0 1 (vdot V w).
Proof.
  intros [X [Y Z]]. unfold vdot. apply (is_RInt_plus (V:=R_NormedModule)); [apply (is_RInt_plus (V:=R_NormedModule))|];
    (eapply is_RInt_ext; [intros s _; apply Rmult_comm|]; rewrite (Rmult_comm (_ V)); apply (is_RInt_scal (V:=R_NormedModule)); assumption).
Qed.
Lemma wire_pot nodes q V h t : is_wire_integral (dl_over_r q) nodes V -> q = ap h t ->
  vdot V (ad h t) = asum (fun g => RInt (fun s => ker g h s t) (alo g) (ahi g)) (arcs nodes).
Proof.
  intros H ->. revert V H. induction nodes as [|a [|b rest] IH]; cbn [is_wire_integral arcs asum]; intros V H; try (subst V; unfold vdot; cbn; ring).
  destruct H as [v [w [H1 [H2 ->]]]]. specialize (IH w H2).
  change (vdot (vadd v w) (ad h t) = RInt (fun s => ker (seg_arc a b) h s t) (alo (seg_arc a b)) (ahi (seg_arc a b)) + asum (fun g => RInt (fun s => ker g h s t) (alo g) (ahi g)) (arcs (b :: rest))). rewrite <- IH.
  replace (RInt (fun s => ker (seg_arc a b) h s t) (alo (seg_arc a b)) (ahi (seg_arc a b))) with (vdot v (ad h t)); [destruct v, w, (ad h t); unfold vdot; cbn; ring|].
  symmetry. apply is_RInt_unique. pose proof (vint_dot_r _ _ (ad h t) H1) as D. cbn [alo ahi seg_arc].
  eapply is_RInt_ext; [|exact D]. intros s _. cbv beta. rewrite dlr_dot. reflexivity.
Qed.
Lemma ring_pot c u v a q V h t : is_circle_integral (dl_over_r q) c u v a V -> q = ap h t ->
  vdot V (ad h t) = asum (fun g => RInt (fun s => ker g h s t) (alo g) (ahi g)) [ring_arc c u v a].
Proof.
  intros [X [Y Z]] ->. cbn [asum]. rewrite Rplus_0_r. symmetry. apply is_RInt_unique. cbn [alo ahi ring_arc].
  pose proof (is_RInt_plus (V:=R_NormedModule) _ _ _ _ _ _ (is_RInt_plus (V:=R_NormedModule) _ _ _ _ _ _ (is_RInt_scal (V:=R_NormedModule) _ _ _ (vx (ad h t)) _ X)
    (is_RInt_scal (V:=R_NormedModule) _ _ _ (vy (ad h t)) _ Y)) (is_RInt_scal (V:=R_NormedModule) _ _ _ (vz (ad h t)) _ Z)) as D.
  replace (vdot V (ad h t)) with (plus (plus (scal (vx (ad h t)) (vx V)) (scal (vy (ad h t)) (vy V))) (scal (vz (ad h t)) (vz V)) : R).
  - eapply is_RInt_ext; [|exact D]. intros s _. unfold ker. cbn [ad ap ring_arc]. rewrite <- dlr_dot. unfold vdot. change plus with Rplus. change scal with Rmult. cbn. ring.
  - unfold vdot. change plus with Rplus. change scal with Rmult. cbn. ring.
Qed.
