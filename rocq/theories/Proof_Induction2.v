(** Weak induction: scaling with the frequency, the static limit and the layered dipole's field *)
From Coq Require Import String Reals List Lia Lra Psatz.
From Coquelicot Require Import Coquelicot.
From Verif Require Import Vec3 Calculus Cplx Deriv Proof_FDEM Numpy Model_RTE Model_Layered Proof_RTE Proof_RTE2 Proof_RTE6 Proof_RTE7 Proof_RTE8 Proof_RTE9 Proof_RTE10 Proof_RTE11 Proof_RTE12 Proof_RTE13
  Spec_FDEM Spec_RTE Spec_RTE2 Spec_Layered Spec_Hankel Spec_Depth Spec_Induction Proof_Hankel Proof_Depth Proof_Induction.
Import ListNotations.
Open Scope R_scope.

Lemma C127_field_lemma mu_0 flt s xyz field r f k sg th smax :
  consistent s -> whole flt -> (forall x, In x (hf_base flt) -> 0 < x) -> field <> "total"%string ->
  magnetic_field mu_0 flt s xyz field = Ok r -> (f < n_frequency s)%nat -> (k < length xyz)%nat -> beside (nth k xyz vzero) (ly_location s) ->
  0 < mu_0 -> 0 < nth f (ly_frequency s) 0 -> earth sg th -> over mu_0 s sg th -> (forall c, In c sg -> c <= smax) ->
  let p := nth k xyz vzero in let q := ly_location s in let o := ly_orientation s in let rho := horizontally q p in
  let fr := nth f (ly_frequency s) 0 in
  exists h, entry r f k = Some h /\ forall e,
    Cmod (cvdot h e - RtoC (ly_moment s / (4 * PI)) * filtered flt rho
      (fun la => linear_response mu_0 fr la sg th * RtoC (exp (- la * (vz p + vz q)) * vdot e (kernel0 o (vx p - vx q) (vy p - vy q) la)))
      (fun la => linear_response mu_0 fr la sg th * RtoC (exp (- la * (vz p + vz q)) * vdot e (kernel1 o (vx p - vx q) (vy p - vy q) la))))%C
    <= Rabs (ly_moment s) / (4 * PI * rho) *
      rsum (length (hf_base flt)) (fun i => let la := nth i (hf_base flt) 0 / rho in
        2 * induction mu_0 fr la smax ^ 2 * (exp (- la * (vz p + vz q)) *
        (Rabs (vdot e (kernel0 o (vx p - vx q) (vy p - vy q) la) * nth i (hf_j0 flt) 0)
         + Rabs (vdot e (kernel1 o (vx p - vx q) (vy p - vy q) la) * nth i (hf_j1 flt) 0)))).
Proof.
  intros Ca W Bp NF Ha Hf Hk B Pm Pf HE HO HM p q o rho fr.
  destruct (field_lemma mu_0 flt s xyz field r f k Ca W NF Ha Hf Hk B) as (ha & Ea & Va).
  destruct (over_sees mu_0 s f sg th HE HO) as (A1 & A2 & A3).
  exists ha. split; [exact Ea|]. intros e. rewrite Va. fold p q o. fold rho. fold fr. rewrite A1, A2, A3.
  assert (Hr : 0 < rho) by (apply sqrt_lt_R0, horiz_pos, B).
  unfold filtered.
  match goal with |- Cmod (?c * (?d * ?x) - ?c * (?d * ?y))%C <= _ => replace (c * (d * x) - c * (d * y))%C with (c * d * (x - y))%C by ring end.
  rewrite csum_minus, !Cmod_mult, !Cmod_R.
  replace (Rabs (ly_moment s / (4 * PI)) * Rabs (/ rho)) with (Rabs (ly_moment s) / (4 * PI * rho)).
  2:{ pose proof PI_RGT_0. rewrite Rabs_div by lra. rewrite (Rabs_right (4 * PI)) by lra. rewrite (Rabs_right (/ rho)) by (left; apply Rinv_0_lt_compat; exact Hr). field. lra. }
  apply Rmult_le_compat_l.
  { pose proof PI_RGT_0. apply Rdiv_le_0_compat; [apply Rabs_pos|]. apply Rmult_lt_0_compat; lra. }
  apply csum_bound. intros i Hi. cbv zeta. set (la := nth i (hf_base flt) 0 / rho).
  assert (Pla : 0 < la) by (apply Rdiv_lt_0_compat; [apply Bp, nth_In; exact Hi|exact Hr]).
  pose proof (C127_linear_lemma mu_0 fr la sg th smax Pm Pf Pla HE HM) as K.
  set (xa := py_rTE mu_0 fr la (conductivities sg) (nonmagnetic mu_0 sg) th) in *.
  set (xb := linear_response mu_0 fr la sg th) in *.
  set (w0 := nth i (hf_j0 flt) 0). set (w1 := nth i (hf_j1 flt) 0).
  set (k0 := vdot e (kernel0 o (vx p - vx q) (vy p - vy q) la)). set (k1 := vdot e (kernel1 o (vx p - vx q) (vy p - vy q) la)).
  set (E := exp (- la * (vz p + vz q))).
  replace (xa * RtoC (E * k0) * RtoC w0 + xa * RtoC (E * k1) * RtoC w1 - (xb * RtoC (E * k0) * RtoC w0 + xb * RtoC (E * k1) * RtoC w1))%C
    with ((xa - xb) * (RtoC (E * k0 * w0) + RtoC (E * k1 * w1)))%C by (rewrite !RtoC_mult; ring).
  rewrite Cmod_mult, <- RtoC_plus, Cmod_R.
  assert (PE : 0 < E) by apply exp_pos.
  apply Rmult_le_compat; [apply Cmod_ge_0|apply Rabs_pos|exact K|].
  replace (E * k0 * w0 + E * k1 * w1) with (E * (k0 * w0 + k1 * w1)) by ring. rewrite Rabs_mult, (Rabs_right E) by lra.
  apply Rmult_le_compat_l; [lra|]. apply Rabs_triang.
Qed.

(** ** multiplying the frequency and dividing the conductivities by the same number *)
Lemma uu_scale c w lamb s m : uu (c * w) lamb s m = uu w lamb (RtoC c * s)%C m.
Proof. unfold uu. rewrite (RtoC_mult c w). apply (f_equal csqrt). ring. Qed.
Lemma yy_scale c w lamb s m : c <> 0 -> w <> 0 -> m <> RtoC 0 -> yy (c * w) lamb s m = (/ RtoC c * yy w lamb (RtoC c * s)%C m)%C.
Proof.
  intros Pc Pw Nm. unfold yy. rewrite uu_scale, RtoC_mult. assert (A : RtoC c <> RtoC 0) by (apply RtoC_neq; exact Pc).
  assert (B : RtoC w <> RtoC 0) by (apply RtoC_neq; exact Pw). pose proof Ci_neq. field. repeat split; assumption.
Qed.
Lemma tt_scale c w lamb s m h : tt (c * w) lamb s m h = tt w lamb (RtoC c * s)%C m h.
Proof. unfold tt. rewrite uu_scale. reflexivity. Qed.
Lemma layer_ok_scale c w lamb s m : 0 < c -> layer_ok (c * w) lamb s m <-> layer_ok w lamb (RtoC c * s)%C m.
Proof.
  intros Pc. unfold layer_ok. split; intros (r & P & E & H); exists r; (split; [exact P|]); (split; [exact E|]); revert H; reim; intros H.
  - destruct H as [H|[H1 H2]]; [left; nra|right]. rewrite H1. split; [ring|]. nra.
  - destruct H as [H|[H1 H2]].
    + left. replace (c * Re s - 0 * Im s) with (c * Re s) in H by ring. apply Rmult_lt_reg_l with c; lra.
    + right. assert (Re s = 0) by (apply Rmult_eq_reg_l with c; lra). split; [assumption|]. nra.
Qed.
Lemma stack_scale c w lamb sg mu th : 0 < c -> stack (layer_ok (c * w) lamb) sg mu th <-> stack (layer_ok w lamb) (map (Cmult (RtoC c)) sg) mu th.
Proof.
  intros Pc. unfold stack. rewrite map_length. split; intros (A & B & D); (split; [exact A|]); (split; [|exact D]).
  - clear A. induction B as [|s m sg mu G F IH]; cbn [map]; constructor; [apply layer_ok_scale; assumption|exact IH].
  - clear A. revert B. revert mu. induction sg as [|s sg IH]; intros mu B; inversion B; subst; constructor; [apply <- layer_ok_scale; eassumption|apply IH; assumption].
Qed.
Lemma yl_scale c w lamb : 0 < c -> 0 < w -> forall th sg mu, stack (layer_ok (c * w) lamb) sg mu th ->
  yl (c * w) lamb sg mu th = (/ RtoC c * yl w lamb (map (Cmult (RtoC c)) sg) mu th)%C.
Proof.
  intros Pc Pw. induction th as [|h th IH]; intros [|s sg] [|m mu] H; try (destruct H as (L & F & _); cbn in L; inversion F; lia).
  - destruct H as (L & F & _). cbn in L. destruct sg; [|cbn in L; lia]. inversion F as [|? ? ? ? G]; subst. destruct G as (r & P & -> & _).
    cbn [yl map]. apply yy_scale; try lra. apply RtoC_neq. lra.
  - pose proof H as H0. apply (stack_scale c w lamb) in H; [|exact Pc]. cbn [map] in H.
    destruct H as (L & F & T). cbn in L. inversion F as [|? ? ? ? G F']; subst. inversion T as [|? ? Hh T']; subst.
    destruct H0 as (L0 & F0 & T0). cbn in L0. inversion F0 as [|? ? ? ? G0 F0']; subst.
    assert (S' : stack (layer_ok w lamb) (map (Cmult (RtoC c)) sg) mu th) by (split; [lia|]; split; assumption).
    assert (S0' : stack (layer_ok (c * w) lamb) sg mu th) by (split; [lia|]; split; assumption).
    destruct (step_ground w lamb Pw _ _ h _ G Hh (stack_upper w lamb Pw _ _ _ S')) as (_ & N & _). cbv zeta in N.
    cbn [yl map]. rewrite (IH _ _ S0'), tt_scale. destruct G as (r & P & -> & _). rewrite yy_scale by (try lra; apply RtoC_neq; lra).
    set (Y := yy w lamb (RtoC c * s)%C (RtoC r)) in *. set (t := tt w lamb (RtoC c * s)%C (RtoC r) h) in *.
    set (y := yl w lamb (map (Cmult (RtoC c)) sg) mu th) in *.
    assert (A : RtoC c <> RtoC 0) by (apply RtoC_neq; lra). field. repeat split; try assumption.
Qed.
Lemma rTE_scale mu0 c f lamb sg mu th : 0 < mu0 -> 0 < c -> 0 < f -> 0 < lamb -> ground (c * f) lamb sg mu th ->
  py_rTE mu0 (c * f) lamb sg mu th = py_rTE mu0 f lamb (map (Cmult (RtoC c)) sg) mu th.
Proof.
  intros Pm Pc Pf Pl H. pose proof (omega_pos f Pf) as Pw. unfold ground in H. replace (2 * PI * (c * f)) with (c * (2 * PI * f)) in H by ring.
  destruct (stack_lengths _ _ _ _ H) as [L1 L2]. rewrite !py_rTE_yl by (rewrite ?map_length; assumption).
  replace (2 * PI * (c * f)) with (c * (2 * PI * f)) by ring. rewrite (yl_scale c (2 * PI * f) lamb Pc Pw th sg mu H).
  apply (stack_scale c (2 * PI * f) lamb) in H; [|exact Pc].
  pose proof (top_neq (2 * PI * f) lamb mu0 _ Pw Pl Pm (stack_upper (2 * PI * f) lamb Pw _ _ _ H)) as N. set (w := 2 * PI * f) in *.
  set (y := yl w lamb (map (Cmult (RtoC c)) sg) mu th) in *. rewrite RtoC_mult.
  assert (A : RtoC c <> RtoC 0) by (apply RtoC_neq; lra). assert (B : RtoC w <> RtoC 0) by (apply RtoC_neq; lra).
  assert (D : RtoC mu0 <> RtoC 0) by (apply RtoC_neq; lra). pose proof Ci_neq as I.
  assert (N' : (RtoC lamb + Ci * RtoC w * RtoC mu0 * y)%C <> RtoC 0).
  { intros E. apply N. replace (RtoC lamb / (Ci * RtoC w * RtoC mu0) + y)%C with ((RtoC lamb + Ci * RtoC w * RtoC mu0 * y) / (Ci * RtoC w * RtoC mu0))%C by (field; auto).
    rewrite E. unfold Cdiv. ring. }
  field. repeat split; try assumption. replace (RtoC lamb + y * (Ci * RtoC w * RtoC mu0))%C with (RtoC lamb + Ci * RtoC w * RtoC mu0 * y)%C by ring. exact N'.
Qed.

(** ** the static limit *)
Lemma zero_wave w w' lamb m s F G z : te_wave w lamb (RtoC 0) m F G z -> w' = 0 -> te_wave w' lamb s m F G z.
Proof.
  intros [A B] ->. split; [exact A|]. eapply is_cderive_eq; [exact B|]. ring.
Qed.
Lemma wave_zero w lamb m s F G z : te_wave 0 lamb s m F G z -> te_wave w lamb (RtoC 0) m F G z.
Proof. intros [A B]. split; [exact A|]. eapply is_cderive_eq; [exact B|]. ring. Qed.
Lemma ground_zero w lamb : forall sg mu th E H, te_ground w lamb (map (fun _ => RtoC 0) sg) mu th E H -> te_ground 0 lamb sg mu th E H.
Proof.
  intros sg mu th E H K. remember (map (fun _ : C => RtoC 0) sg) as z eqn:Ez. revert sg Ez.
  induction K as [s m F G D L|s m h sigma mu th F G D K IH]; intros sg Ez.
  - destruct sg as [|s0 [|]]; cbn in Ez; try discriminate. injection Ez as ->. apply te_basement; [|exact L].
    intros z Hz. eapply zero_wave; [apply D; exact Hz|reflexivity].
  - destruct sg as [|s0 sg]; cbn in Ez; try discriminate. injection Ez as -> Ez. apply te_layer.
    + intros z Hz. eapply zero_wave; [apply D; exact Hz|reflexivity].
    + apply IH. exact Ez.
Qed.
Lemma zero_ground w lamb : forall sg mu th E H, te_ground 0 lamb sg mu th E H -> te_ground w lamb (map (fun _ => RtoC 0) sg) mu th E H.
Proof.
  intros sg mu th E H K. induction K as [s m F G D L|s m h sigma mu th F G D K IH]; cbn [map].
  - apply te_basement; [|exact L]. intros z Hz. apply (wave_zero w lamb m s). apply D; exact Hz.
  - apply te_layer; [|exact IH]. intros z Hz. apply (wave_zero w lamb m s). apply D; exact Hz.
Qed.

Lemma magnetic_ground f lamb sg mu th : 0 < lamb -> magnetic sg mu th -> ground f lamb (map RtoC sg) (map RtoC mu) th.
Proof.
  intros Pl (A & B & D & E & F). split; [rewrite map_length; exact A|]. split; [|exact F].
  assert (L : length sg = length mu) by congruence. clear A B F. revert mu E L. induction D as [|s sg Hs D IH]; intros [|m mu] E L; cbn in L; try discriminate; cbn [map]; constructor.
  - inversion E; subst. exists m. split; [assumption|]. split; [reflexivity|]. cbn. destruct Hs as [Hs|Hs]; [left; exact Hs|right]. split; [symmetry; exact Hs|nra].
  - inversion E; subst. apply IH; [assumption|congruence].
Qed.
Lemma magnetic_zero sg mu th : magnetic sg mu th -> magnetic (map (fun _ => 0) sg) mu th.
Proof.
  intros (A & B & D & E & F). split; [rewrite map_length; exact A|]. split; [exact B|]. split; [|split; assumption].
  clear. induction sg; cbn [map]; constructor; [lra|assumption].
Qed.
Lemma map_zero sg : map (fun _ : C => RtoC 0) (map RtoC sg) = map RtoC (map (fun _ => 0) sg).
Proof. rewrite !map_map. reflexivity. Qed.
Lemma static_unique mu0 f lamb sg mu th r : 0 < mu0 -> 0 < f -> 0 < lamb -> magnetic sg mu th ->
  (reflects mu0 0 lamb (map RtoC sg) (map RtoC mu) th r <-> r = py_rTE mu0 f lamb (map RtoC (map (fun _ => 0) sg)) (map RtoC mu) th).
Proof.
  intros Pm Pf Pl H. pose proof (magnetic_ground f lamb _ _ _ Pl (magnetic_zero _ _ _ H)) as G.
  rewrite <- (C93_lemma mu0 f lamb _ _ th r Pm Pf Pl G). unfold reflects. split; intros K.
  - rewrite <- map_zero. apply zero_ground. exact K.
  - rewrite <- map_zero in K. eapply ground_zero. exact K.
Qed.
Lemma static_limit mu0 lamb sg mu th : 0 < mu0 -> 0 < lamb -> magnetic sg mu th ->
  filterlim (fun f => Cmod (py_rTE mu0 f lamb (map RtoC sg) (map RtoC mu) th - py_rTE mu0 1 lamb (map RtoC (map (fun _ => 0%R) sg)) (map RtoC mu) th)%C) (at_right 0) (locally 0).
Proof.
  intros Pm Pl H. pose (c := fun t => map (Cmult (RtoC t)) (map RtoC sg)).
  assert (Cs : is_curve c 0 (map RtoC sg)).
  { split; [intros t; unfold c; rewrite map_length; reflexivity|]. intros k Hk. unfold c.
    assert (E : forall t, nth k (map (Cmult (RtoC t)) (map RtoC sg)) (RtoC 0) = (nth k (map RtoC sg) (RtoC 0) * RtoC t)%C).
    { intros t. rewrite (nth_indep _ _ (RtoC t * RtoC 0)%C) by (rewrite map_length; exact Hk). rewrite map_nth. ring. }
    eapply is_cderive_ext; [intros t; symmetry; apply E|]. eapply is_cderive_eq; [apply CD_scal|].
    - instantiate (1 := RtoC 1). split; cbn [Re Im RtoC fst snd].
      + apply (is_derive_id (K := R_AbsRing)).
      + apply (is_derive_const (K := R_AbsRing) (V := R_NormedModule)).
    - ring. }
  assert (Cm : is_curve (fun _ => map RtoC mu) 0 (map (fun _ => RtoC 0) mu)).
  { split; [intros t; rewrite !map_length; reflexivity|]. intros k Hk. rewrite map_length in Hk.
    replace (nth k (map (fun _ : R => RtoC 0) mu) (RtoC 0)) with (RtoC 0).
    2:{ clear. revert k. induction mu as [|m mu IH]; intros [|k]; cbn; auto. }
    split; cbn [Re Im RtoC fst snd]; apply (is_derive_const (K := R_AbsRing) (V := R_NormedModule)). }
  assert (Ch : is_rcurve (fun _ => th) 0 (map (fun _ => 0) th)).
  { split; [intros t; rewrite map_length; reflexivity|]. intros k Hk. 
    replace (nth k (map (fun _ : R => 0) th) 0) with 0.
    2:{ clear. revert k. induction th as [|m mu IH]; intros [|k]; cbn; auto. }
    apply (is_derive_const (K := R_AbsRing) (V := R_NormedModule)). }
  assert (E0 : c 0 = map RtoC (map (fun _ => 0) sg)).
  { unfold c. rewrite !map_map. apply map_ext. intros a. ring. }
  assert (G0 : ground 1 lamb (c 0) (map RtoC mu) th) by (rewrite E0; apply magnetic_ground; [exact Pl|apply magnetic_zero; exact H]).
  pose proof (C19_lemma mu0 1 lamb c (fun _ => map RtoC mu) (fun _ => th) 0 _ _ _ Pm Rlt_0_1 Pl Cs Cm Ch G0) as D. cbv zeta in D.
  destruct (is_cderive_continuous _ _ _ D) as [K1 K2]. clear D.
  pose (P := fun t => py_rTE mu0 1 lamb (c t) (map RtoC mu) th).
  assert (L : filterlim (fun t => Cmod (P t - P 0)%C) (locally 0) (locally 0)).
  { replace (locally 0) with (locally (sqrt ((Re (P 0) - Re (P 0)) ^ 2 + (Im (P 0) - Im (P 0)) ^ 2))) at 2.
    2:{ f_equal. replace ((Re (P 0) - Re (P 0)) ^ 2 + (Im (P 0) - Im (P 0)) ^ 2) with 0 by ring. apply sqrt_0. }
    apply (continuous_ext (fun t => sqrt ((Re (P t) - Re (P 0)) ^ 2 + (Im (P t) - Im (P 0)) ^ 2)) (fun t => Cmod (P t - P 0)%C)).
    { intros t. unfold Cmod. f_equal. }
    assert (K1' : continuous (fun t => Re (P t)) 0) by exact K1.
    assert (K2' : continuous (fun t => Im (P t)) 0) by exact K2.
    apply (continuous_comp (fun t => (Re (P t) - Re (P 0)) ^ 2 + (Im (P t) - Im (P 0)) ^ 2) sqrt); [|apply continuous_sqrt].
    assert (Sq : forall g : R -> R, continuous g 0 -> continuous (fun t => (g t - g 0) ^ 2) 0).
    { intros g Kg. apply (continuous_ext (fun t => (g t - g 0) * (g t - g 0))); [intros t; match goal with |- ?a = ?b => change (@eq R a b) end; ring|].
      assert (M : continuous (fun t => g t - g 0) 0) by (apply (continuous_minus (K := R_AbsRing) (V := R_NormedModule)); [exact Kg|apply continuous_const]).
      apply (continuous_mult (K := R_AbsRing)); exact M. }
    apply (continuous_plus (K := R_AbsRing) (V := R_NormedModule)); [apply (Sq (fun t => Re (P t)))|apply (Sq (fun t => Im (P t)))]; assumption. }
  unfold P at 2 in L. rewrite E0 in L.
  apply (filterlim_ext_loc (fun t => Cmod (P t - py_rTE mu0 1 lamb (map RtoC (map (fun _ => 0) sg)) (map RtoC mu) th)%C)).
  - exists (mkposreal 1 Rlt_0_1). intros f _ Pf. unfold P, c. rewrite <- rTE_scale; try assumption; try lra.
    + rewrite Rmult_1_r. reflexivity.
    + apply magnetic_ground; assumption.
  - eapply filterlim_filter_le_1; [|exact L]. apply filter_le_within.
Qed.
Lemma static_lemma mu0 lamb sg mu th : 0 < mu0 -> 0 < lamb -> magnetic sg mu th ->
  exists r, (forall r', reflects mu0 0 lamb (map RtoC sg) (map RtoC mu) th r' <-> r' = r) /\
    filterlim (fun f => Cmod (py_rTE mu0 f lamb (map RtoC sg) (map RtoC mu) th - r)%C) (at_right 0) (locally 0) /\
    (forall f, 0 < f -> py_rTE mu0 f lamb (map (fun _ => RtoC 0) sg) (map RtoC mu) th = r).
Proof.
  intros Pm Pl H. exists (py_rTE mu0 1 lamb (map RtoC (map (fun _ => 0) sg)) (map RtoC mu) th).
  split; [intros r'; apply static_unique; try assumption; lra|]. split; [apply static_limit; assumption|].
  intros f Pf. pose proof (proj2 (static_unique mu0 1 lamb sg mu th _ Pm Rlt_0_1 Pl H) eq_refl) as A.
  apply (static_unique mu0 f lamb sg mu th _ Pm Pf Pl H) in A. rewrite A. rewrite map_map. reflexivity.
Qed.
Lemma shares_lemma lamb c : forall th, cumulative lamb 0 (map (fun _ => c) th ++ [c]) th = c.
Proof.
  induction th as [|h th IH]; cbn [map app cumulative].
  - replace (- 2 * lamb * 0) with 0 by ring. rewrite exp_0. ring.
  - rewrite cumulative_shift, IH. replace (- 2 * lamb * 0) with 0 by ring. rewrite exp_0. ring.
Qed.
Lemma apparent_lemma lamb : forall sg th lo hi, 0 < lamb -> earth sg th ->
  (forall s, In s sg -> lo <= s <= hi) -> lo <= cumulative lamb 0 sg th <= hi.
Proof.
  induction sg as [|s sg IH]; intros [|h th] lo hi Pl HE HB; try (destruct HE as (L & _); cbn in L; lia).
  - cbn [cumulative]. replace (- 2 * lamb * 0) with 0 by ring. rewrite exp_0, Rmult_1_r. apply HB. left. reflexivity.
  - destruct (earth_inv _ _ _ _ HE) as (Ps & Ph & HE'). cbn [cumulative]. rewrite cumulative_shift, Rplus_0_l.
    replace (- 2 * lamb * 0) with 0 by ring. rewrite exp_0.
    assert (B := HB s (or_introl eq_refl)). assert (I := IH th lo hi Pl HE' (fun x Hx => HB x (or_intror Hx))).
    assert (D : 0 < exp (- 2 * lamb * h) <= 1).
    { split; [apply exp_pos|]. rewrite <- exp_0. destruct (Rle_lt_or_eq_dec (- 2 * lamb * h) 0) as [K|K]; [nra|left; apply exp_increasing; exact K|rewrite K; lra]. }
    nra.
Qed.
