(** Iterated integrals of a continuous function over a rectangle agree. *)
From Coq Require Import Reals Lra.
From Coquelicot Require Import Coquelicot.
Open Scope R_scope.

Lemma c2_slice_l (f : R -> R -> R) x y : continuity_2d_pt f x y -> continuous (fun u => f u y) x.
Proof.
  intros H. apply continuity_pt_filterlim. intros eps He. destruct (H (mkposreal eps He)) as [d D]. exists d. split; [apply cond_pos|].
  intros u [_ Hu]. apply D; [exact Hu|]. rewrite Rminus_eq_0, Rabs_R0. apply cond_pos.
Qed.
Lemma c2_slice_r (f : R -> R -> R) x y : continuity_2d_pt f x y -> continuous (fun v => f x v) y.
Proof.
  intros H. apply continuity_pt_filterlim. intros eps He. destruct (H (mkposreal eps He)) as [d D]. exists d. split; [apply cond_pos|].
  intros v [_ Hv]. apply D; [|exact Hv]. rewrite Rminus_eq_0, Rabs_R0. apply cond_pos.
Qed.
Lemma c2_swap (f : R -> R -> R) x y : continuity_2d_pt f x y -> continuity_2d_pt (fun u v => f v u) y x.
Proof. intros H eps. destruct (H eps) as [d D]. exists d. intros u v Hu Hv. apply D; assumption. Qed.
Lemma cont_ex (f : R -> R) a b : (forall x, continuous f x) -> ex_RInt f a b.
Proof. intros H. apply (ex_RInt_continuous (V:=R_CompleteNormedModule)). intros x _. apply H. Qed.

Section Everywhere.
Variable F : R -> R -> R.
Hypothesis HF : forall x y, continuity_2d_pt F x y.
Lemma param_cont a b y : a <= b -> continuous (fun v => RInt (fun u => F u v) a b) y.
Proof.
  intros Hab. apply continuity_pt_filterlim. intros eps He. assert (E' : 0 < eps / (b - a + 1)) by (apply Rdiv_lt_0_compat; lra).
  destruct (uniform_continuity_2d F a b (y - 1) (y + 1) (fun x z _ _ => HF x z) (mkposreal _ E')) as [d D]. cbn in D.
  exists (Rmin d 1). split; [apply Rmin_glb_lt; [apply cond_pos|lra]|]. intros v [_ Hv]. cbn in Hv. unfold R_dist in Hv.
  pose proof (Rmin_l d 1). pose proof (Rmin_r d 1). assert (V1 : Rabs (v - y) < 1) by lra. apply Rabs_def2 in V1.
  assert (X : forall z, ex_RInt (fun u => F u z) a b) by (intros z; apply cont_ex; intros x; apply c2_slice_l, HF).
  cbn. unfold R_dist. pose proof (is_RInt_minus (V:=R_NormedModule) _ _ _ _ _ _ (RInt_correct _ _ _ (X v)) (RInt_correct _ _ _ (X y))) as I.
  apply Rle_lt_trans with ((b - a) * (eps / (b - a + 1))).
  - refine (norm_RInt_le_const (V:=R_NormedModule) _ a b _ _ Hab _ I). intros x Hx. apply Rlt_le. change (Rabs (F x v - F x y) < eps / (b - a + 1)).
    apply D; try lra; [rewrite Rminus_eq_0, Rabs_R0; apply cond_pos].
  - apply Rmult_lt_reg_r with (b - a + 1); [lra|]. replace ((b - a) * (eps / (b - a + 1)) * (b - a + 1)) with ((b - a) * eps) by (field; lra). nra.
Qed.
End Everywhere.

Section Fub.
Variable F : R -> R -> R.
Hypothesis HF : forall x y, continuity_2d_pt F x y.
Variables a b c d : R.
Hypothesis Hab : a <= b.
Hypothesis Hcd : c <= d.
Let G x := RInt (F x) c d.
Let H x := RInt (fun y => RInt (fun t => F t y) a x) c d.
Lemma G_cont x : continuous G x.
Proof. exact (param_cont (fun u v => F v u) (fun x y => c2_swap _ _ _ (HF y x)) c d x Hcd). Qed.
Lemma inner_derive x y : is_derive (fun z => RInt (fun t => F t y) a z) x (F x y).
Proof.
  apply (is_derive_RInt (V:=R_NormedModule) (fun t => F t y) _ a).
  - apply filter_forall. intros z. apply (RInt_correct (V:=R_CompleteNormedModule)), cont_ex. intros u. apply (c2_slice_l F), HF.
  - apply (c2_slice_l F), HF.
Qed.
Lemma inner_cont x y : continuous (fun v => RInt (fun t => F t v) a x) y.
Proof.
  destruct (Rle_dec a x) as [L|L]; [apply param_cont; assumption|].
  apply (continuous_ext (fun v => opp (RInt (fun t => F t v) x a))).
  - intros v. apply (opp_RInt_swap (V:=R_CompleteNormedModule)). apply cont_ex. intros u. apply c2_slice_l, HF.
  - apply (continuous_opp (V:=R_NormedModule)). apply (param_cont F HF). lra.
Qed.
Lemma H_derive x : is_derive H x (G x).
Proof.
  unfold H, G. replace (RInt (F x) c d) with (RInt (fun y => Derive (fun u => RInt (fun t => F t y) a u) x) c d).
  - apply is_derive_RInt_param.
    + apply filter_forall. intros z t _. eexists. apply inner_derive.
    + intros t _. apply (continuity_2d_pt_ext F); [|apply HF]. intros u v. symmetry. apply is_derive_unique, inner_derive.
    + apply filter_forall. intros z. apply cont_ex. intros y. apply inner_cont.
  - apply RInt_ext. intros y _. apply is_derive_unique, inner_derive.
Qed.
Lemma fubini_everywhere : RInt G a b = RInt (fun y => RInt (fun x => F x y) a b) c d.
Proof.
  assert (I : is_RInt G a b (H b - H a)).
  { apply (is_RInt_derive H G); intros x _; [apply H_derive|apply G_cont]. }
  apply is_RInt_unique in I. rewrite I. assert (Z : H a = 0 :> R).
  { unfold H. rewrite (RInt_ext _ (fun _ => 0)); [rewrite RInt_const; apply Rmult_0_r|]. intros y _. exact (RInt_point a (fun t => F t y)). }
  transitivity (Rminus (H b) (H a)); [reflexivity|]. transitivity (H b); [|reflexivity]. apply Rminus_diag_uniq. transitivity (Ropp (H a)); [change (H b - H a - H b = - H a)%R; lra|]. change (- H a = 0)%R. lra.
Qed.
End Fub.

(** *** on a rectangle *)
Definition clamp (a b x : R) : R := Rmax a (Rmin b x).
Lemma clamp_id a b x : a <= x <= b -> clamp a b x = x.
Proof. intros. unfold clamp. rewrite Rmin_right, Rmax_right; lra. Qed.
Lemma clamp_in a b x : a <= b -> a <= clamp a b x <= b.
Proof. intros. unfold clamp, Rmax, Rmin. destruct (Rle_dec b x), (Rle_dec _ _); lra. Qed.
Lemma clamp_lip a b x y : a <= b -> Rabs (clamp a b x - clamp a b y) <= Rabs (x - y).
Proof.
  intros. unfold clamp, Rmax, Rmin. destruct (Rle_dec b x), (Rle_dec b y); repeat destruct (Rle_dec _ _); unfold Rabs; repeat destruct (Rcase_abs _); lra.
Qed.

Section Rect.
Variable f : R -> R -> R.
Variables a b c d : R.
Hypothesis Hab : a <= b.
Hypothesis Hcd : c <= d.
Hypothesis Hf : forall x y, a <= x <= b -> c <= y <= d -> continuity_2d_pt f x y.
Let F x y := f (clamp a b x) (clamp c d y).
Lemma F_cont x y : continuity_2d_pt F x y.
Proof.
  intros eps. destruct (Hf (clamp a b x) (clamp c d y) (clamp_in _ _ _ Hab) (clamp_in _ _ _ Hcd) eps) as [e E]. exists e. intros u v Hu Hv.
  apply E; (eapply Rle_lt_trans; [apply clamp_lip; assumption|assumption]).
Qed.
Lemma F_eq x y : a <= x <= b -> c <= y <= d -> F x y = f x y.
Proof. intros. unfold F. rewrite !clamp_id by assumption. reflexivity. Qed.
Lemma rect_inner_r x : a <= x <= b -> is_RInt (f x) c d (RInt (f x) c d).
Proof.
  intros X. apply (RInt_correct (V:=R_CompleteNormedModule)). apply (ex_RInt_ext (F x)).
  - intros y Hy. rewrite Rmin_left, Rmax_right in Hy by lra. apply F_eq; lra.
  - apply cont_ex. intros y. apply c2_slice_r, F_cont.
Qed.
Lemma rect_outer : is_RInt (fun x => RInt (f x) c d) a b (RInt (fun x => RInt (f x) c d) a b).
Proof.
  apply (RInt_correct (V:=R_CompleteNormedModule)). apply (ex_RInt_ext (fun x => RInt (F x) c d)).
  - intros x Hx. rewrite Rmin_left, Rmax_right in Hx by lra. apply RInt_ext. intros y Hy. rewrite Rmin_left, Rmax_right in Hy by lra. apply F_eq; lra.
  - apply cont_ex. intros x. apply (G_cont F F_cont c d Hcd).
Qed.
Lemma fubini : RInt (fun x => RInt (f x) c d) a b = RInt (fun y => RInt (fun x => f x y) a b) c d.
Proof.
  transitivity (RInt (fun x => RInt (F x) c d) a b); [|transitivity (RInt (fun y => RInt (fun x => F x y) a b) c d)].
  - apply RInt_ext. intros x Hx. rewrite Rmin_left, Rmax_right in Hx by lra. apply RInt_ext. intros y Hy. rewrite Rmin_left, Rmax_right in Hy by lra. symmetry. apply F_eq; lra.
  - exact (fubini_everywhere F F_cont a b c d Hcd).
  - apply RInt_ext. intros x Hx. rewrite Rmin_left, Rmax_right in Hx by lra. apply RInt_ext. intros y Hy. rewrite Rmin_left, Rmax_right in Hy by lra. apply F_eq; lra.
Qed.
End Rect.
