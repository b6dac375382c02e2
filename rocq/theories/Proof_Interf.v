From Coq Require Import Ascii String Reals List Arith Bool Lia Lra.
From Verif Require Import Numpy Model_Interf Spec_Interf.
Import ListNotations.
Open Scope nat_scope.

(** ** dates *)
Lemma mod_dvd : forall y k, k <> 0 -> (y mod k = 0 <-> exists q, y = k * q).
Proof. intros y k H. apply Nat.mod_divides. exact H. Qed.
Lemma leap_iff : forall y, leap y = true <-> is_leap y.
Proof.
  intro y. unfold leap, is_leap. rewrite andb_true_iff, orb_true_iff, negb_true_iff.
  rewrite !Nat.eqb_eq, Nat.eqb_neq. rewrite !mod_dvd by lia. reflexivity.
Qed.
Lemma month_length_days : forall y m n, month_length y m n -> n = days_in_month y m.
Proof.
  intros y m n H. destruct H as [m I|m I|L|L].
  - cbn in I. repeat (destruct I as [<-|I]; [reflexivity|]). destruct I.
  - cbn in I. repeat (destruct I as [<-|I]; [reflexivity|]). destruct I.
  - cbn. apply leap_iff in L. rewrite L. reflexivity.
  - cbn. destruct (leap y) eqn:E; [apply leap_iff in E; contradiction|reflexivity].
Qed.
Lemma days_month_length : forall y m, 1 <= m <= 12 -> month_length y m (days_in_month y m).
Proof.
  intros y m H. destruct (Nat.eq_dec m 2) as [->|N].
  2: { assert (I : In m [1;3;4;5;6;7;8;9;10;11;12]) by (cbn; lia). cbn in I.
    repeat (destruct I as [<-|I]; [first [apply ML_31; cbn; tauto|apply ML_30; cbn; tauto]|]). destruct I. }
  cbn. destruct (leap y) eqn:E; [apply ML_29; apply leap_iff; exact E|apply ML_28].
  intro L. apply leap_iff in L. congruence.
Qed.
Lemma constructible_iff : forall t, constructible t = true <-> calendar t.
Proof.
  intro t. unfold constructible, calendar. rewrite !andb_true_iff, !Nat.leb_le. split.
  - intros ((((((((A & B) & C) & D) & E) & F) & G) & H) & I).
    repeat split; auto. eexists. split; [apply days_month_length; auto|auto].
  - intros (A & B & (n & M & D) & H & I & S). apply month_length_days in M. subst n. tauto.
Qed.

Lemma digit_val_digit : forall d, d < 10 -> digit_val (digit d) = Some d.
Proof. intros d H. do 10 (destruct d as [|d]; [reflexivity|]). lia. Qed.
Lemma dig_digit : forall lo hi d s, d < 10 ->
  dig lo hi (String (digit d) s) = if (lo <=? d) && (d <=? hi) then [(d, s)] else [].
Proof. intros. unfold dig. rewrite digit_val_digit by assumption. reflexivity. Qed.

Lemma pY_pad4 : forall y s, y <= 9999 -> pY (pad4 y ++ s)%string = [(y, s)].
Proof.
  intros y s H. assert (E9 : 9999 = 99 * 101) by reflexivity. rewrite E9 in H. clear E9.
  unfold pad4, pad2. cbn [append]. unfold pY, andthen.
  assert (M : forall n, n mod 10 < 10) by (intro; apply Nat.mod_upper_bound; lia).
  assert (Q : forall n, n mod 10 <= 9) by (intro n; specialize (M n); lia).
  repeat (rewrite dig_digit by apply M;
    rewrite (proj2 (Nat.leb_le 0 _)) by lia;
    rewrite (proj2 (Nat.leb_le _ 9)) by apply Q;
    cbn [andb flat_map fst snd app]).
  rewrite !app_nil_r. unfold ret. do 2 f_equal.
  assert (E1 : y = 100 * (y / 100) + y mod 100) by (apply Nat.div_mod; lia).
  assert (L1 : y mod 100 < 100) by (apply Nat.mod_upper_bound; lia).
  assert (L2 : y / 100 < 100) by (apply Nat.div_lt_upper_bound; lia).
  assert (G : forall n, n < 100 -> n / 10 mod 10 * 10 + n mod 10 = n).
  { intros n Hn. rewrite (Nat.mod_small (n / 10)) by (apply Nat.div_lt_upper_bound; lia).
    pose proof (Nat.div_mod n 10 ltac:(discriminate)) as E. rewrite E at 3. ring. }
  pose proof (G _ L1). pose proof (G _ L2). set (a := y / 100 / 10 mod 10) in *. set (b := (y / 100) mod 10) in *. set (c := y mod 100 / 10 mod 10) in *. set (d := (y mod 100) mod 10) in *. lia.
Qed.


Lemma digit_not : forall c, digit_val c = None -> forall lo hi s, dig lo hi (String c s) = [].
Proof. intros c H lo hi s. unfold dig. rewrite H. reflexivity. Qed.
Lemma lit_same : forall c s, lit c (String c s) = [(tt, s)].
Proof. intros. unfold lit. rewrite Ascii.eqb_refl. reflexivity. Qed.

(** a two-digit field followed by a separator that is not a digit *)
Ltac field_tac Hc Hl :=
  unfold andthen, orelse, two, andthen; cbn [flat_map app fst snd];
  rewrite ?dig_digit by lia; cbn [andb Nat.leb flat_map app fst snd ret];
  rewrite ?dig_digit by lia; cbn [andb Nat.leb flat_map app fst snd ret];
  rewrite ?lit_same; rewrite ?Hl by lia; cbn [flat_map app fst snd];
  rewrite ?app_nil_r; try reflexivity.

Lemma lower_digit : forall d, d < 10 -> lower (digit d) = digit d.
Proof. intros d H. do 10 (destruct d as [|d]; [reflexivity|]). lia. Qed.
Lemma lit_digit : forall c d s, d < 10 -> digit_val (lower c) = None -> lit c (String (digit d) s) = [].
Proof.
  intros c d s H Hc. unfold lit. rewrite lower_digit by exact H.
  destruct (Ascii.eqb_spec (lower c) (digit d)) as [E|]; [|reflexivity].
  rewrite E, digit_val_digit in Hc by exact H. discriminate.
Qed.
Ltac enum n := match goal with H : ?a <= n <= ?b |- _ => 
  let I := fresh "I" in
  assert (I : In n (seq a (S b - a))) by (apply in_seq; lia); cbn in I;
  repeat (destruct I as [<-|I]); [..|destruct I] end.

Lemma pm_pad2 : forall {A} m c s (k : nat -> piece A), 1 <= m <= 12 -> digit_val (lower c) = None ->
  andthen pm (fun m => andthen (lit c) (fun _ => k m)) (pad2 m ++ String c s)%string = k m s.
Proof.
  intros A m c s k H Hc.
  assert (Hl : forall d s, d < 10 -> lit c (String (digit d) s) = []) by (intros; apply lit_digit; assumption).
  unfold pm. enum m;
  (match goal with |- context [pad2 ?n] => let p := eval cbv -[digit] in (pad2 n) in change (pad2 n) with p end);
  cbn [append]; field_tac Hc Hl.
Qed.
Ltac fieldlemma m H Hl :=
  enum m;
  (match goal with |- context [pad2 ?n] => let p := eval cbv -[digit] in (pad2 n) in change (pad2 n) with p end);
  cbn [append]; field_tac H Hl.
Lemma pd_pad2 : forall {A} m c s (k : nat -> piece A), 1 <= m <= 31 -> digit_val (lower c) = None ->
  andthen pd (fun m => andthen (lit c) (fun _ => k m)) (pad2 m ++ String c s)%string = k m s.
Proof.
  intros A m c s k H Hc.
  assert (Hl : forall d s, d < 10 -> lit c (String (digit d) s) = []) by (intros; apply lit_digit; assumption).
  assert (Hb : forall d s, d < 10 -> lit " " (String (digit d) s) = []) by (intros; apply lit_digit; [assumption|reflexivity]).
  unfold pd. enum m;
  (match goal with |- context [pad2 ?n] => let p := eval cbv -[digit] in (pad2 n) in change (pad2 n) with p end);
  cbn [append]; unfold andthen, orelse, two, andthen; cbn [flat_map app fst snd]; rewrite ?Hb by lia; field_tac Hc Hl.
Qed.
Lemma pH_pad2 : forall {A} m c s (k : nat -> piece A), 0 <= m <= 23 -> digit_val (lower c) = None ->
  andthen pH (fun m => andthen (lit c) (fun _ => k m)) (pad2 m ++ String c s)%string = k m s.
Proof.
  intros A m c s k H Hc.
  assert (Hl : forall d s, d < 10 -> lit c (String (digit d) s) = []) by (intros; apply lit_digit; assumption).
  unfold pH. fieldlemma m Hc Hl.
Qed.
Lemma pM_pad2 : forall {A} m c s (k : nat -> piece A), 0 <= m <= 59 -> digit_val (lower c) = None ->
  andthen pM (fun m => andthen (lit c) (fun _ => k m)) (pad2 m ++ String c s)%string = k m s.
Proof.
  intros A m c s k H Hc.
  assert (Hl : forall d s, d < 10 -> lit c (String (digit d) s) = []) by (intros; apply lit_digit; assumption).
  unfold pM. fieldlemma m Hc Hl.
Qed.
Lemma pS_pad2 : forall {A} m c s (k : nat -> piece A), 0 <= m <= 59 -> digit_val (lower c) = None ->
  andthen pS (fun m => andthen (lit c) (fun _ => k m)) (pad2 m ++ String c s)%string = k m s.
Proof.
  intros A m c s k H Hc.
  assert (Hl : forall d s, d < 10 -> lit c (String (digit d) s) = []) by (intros; apply lit_digit; assumption).
  unfold pS. fieldlemma m Hc Hl.
Qed.
Lemma pd_end : forall d, 1 <= d <= 31 -> exists l, pd (pad2 d) = (d, EmptyString) :: l.
Proof. intros d H. enum d; eexists; reflexivity. Qed.

Lemma calendar_day : forall t, calendar t -> 1 <= day t <= 31.
Proof.
  intros t (_ & M & (n & L & D) & _). apply month_length_days in L. subst n.
  assert (days_in_month (year t) (month t) <= 31).
  { unfold days_in_month. destruct (month t) as [|[|[|[|[|[|[|[|[|[|[|[|]]]]]]]]]]]]; try lia. destruct (leap _); lia. }
  lia.
Qed.

Lemma slashes_app : forall a b, slashes (a ++ b)%string = (slashes a ++ slashes b)%string.
Proof. induction a as [|c a IH]; intro b; cbn; [reflexivity|]. rewrite IH. reflexivity. Qed.
Lemma slashes_digit : forall d s, d < 10 -> slashes (String (digit d) s) = String (digit d) (slashes s).
Proof. intros d s H. do 10 (destruct d as [|d]; [reflexivity|]). lia. Qed.
Lemma slashes_pad2 : forall n, slashes (pad2 n) = pad2 n.
Proof.
  intro n. unfold pad2. rewrite !slashes_digit by (apply Nat.mod_upper_bound; discriminate). reflexivity.
Qed.
Lemma slashes_pad4 : forall n, slashes (pad4 n) = pad4 n.
Proof. intro n. unfold pad4. rewrite slashes_app, !slashes_pad2. reflexivity. Qed.
Lemma slashes_written : forall sep t, sep = "-"%char \/ sep = "/"%char -> slashes (written_date sep t) = written_date "/" t.
Proof.
  intros sep t H. unfold written_date. rewrite slashes_app, slashes_pad4. f_equal.
  destruct H as [-> | ->]; cbn [slashes Ascii.eqb Bool.eqb]; f_equal; rewrite slashes_app, slashes_pad2; f_equal;
    cbn [slashes Ascii.eqb Bool.eqb]; f_equal; apply slashes_pad2.
Qed.
Lemma len_written_date : forall sep t, String.length (written_date sep t) = 10.
Proof. reflexivity. Qed.
Lemma len_written_iso : forall t, String.length (written_iso t) = 20.
Proof. reflexivity. Qed.

Lemma andthen_pY : forall {A} y s (k : nat -> piece A), y <= 9999 -> andthen pY k (pad4 y ++ s)%string = k y s.
Proof. intros. unfold andthen. rewrite pY_pad4 by assumption. cbn [flat_map fst snd]. apply app_nil_r. Qed.
Lemma andthen_lit : forall {A} c s (k : unit -> piece A), andthen (lit c) k (String c s) = k tt s.
Proof. intros. unfold andthen. rewrite lit_same. cbn [flat_map fst snd]. apply app_nil_r. Qed.

Lemma date_roundtrip : forall sep t, sep = "-"%char \/ sep = "/"%char -> calendar t -> at_midnight t ->
  date_time_from_json (written_date sep t) = Ok t.
Proof.
  intros sep t S C M. unfold date_time_from_json. rewrite len_written_date. cbn [Nat.eqb].
  rewrite (slashes_written sep t S). unfold strptime, fmt_date, written_date.
  pose proof (calendar_day t C) as D. pose proof C as (Y & Mo & _).
  rewrite andthen_pY by lia. rewrite andthen_lit.
  rewrite pm_pad2 by (try exact Mo; reflexivity).
  unfold andthen. destruct (pd_end (day t) D) as [l ->]. cbn [flat_map fst snd app ret].
  destruct t as [y m d h mi s]. destruct M as (A & B & E). cbn in A, B, E. subst h mi s.
  cbn [year month day]. apply constructible_iff in C. rewrite C. reflexivity.
Qed.

Lemma iso_roundtrip : forall t, calendar t -> date_time_from_json (written_iso t) = Ok t.
Proof.
  intros t C. unfold date_time_from_json. rewrite len_written_iso. cbn [Nat.eqb].
  unfold strptime, fmt_iso, written_iso.
  pose proof (calendar_day t C) as D. pose proof C as (Y & Mo & _ & H & Mi & S).
  rewrite andthen_pY by lia. rewrite andthen_lit.
  rewrite pm_pad2 by (try exact Mo; reflexivity).
  rewrite pd_pad2 by (try exact D; reflexivity).
  rewrite pH_pad2 by (try lia; reflexivity).
  rewrite pM_pad2 by (try lia; reflexivity).
  rewrite pS_pad2 by (try lia; reflexivity).
  unfold ret. cbn [flat_map fst snd app].
  apply constructible_iff in C. destruct t as [y m d h mi s]. cbn [year month day hour minute second] in *.
  rewrite C. reflexivity.
Qed.

Lemma strptime_ok : forall fmt s t, strptime fmt s = Ok t -> In (t, EmptyString) (fmt s) /\ calendar t.
Proof.
  intros fmt s t. unfold strptime. destruct (fmt s) as [|[u [|c r]] l]; try discriminate.
  destruct (constructible u) eqn:E; [|discriminate]. intros [= <-].
  split; [left; reflexivity|apply constructible_iff; exact E].
Qed.
Lemma accepted_is_calendar : forall s t, date_time_from_json s = Ok t -> calendar t.
Proof.
  intros s t. unfold date_time_from_json. destruct Nat.eqb; intro H; apply strptime_ok in H; apply H.
Qed.
Lemma date_setter_ok_or_type_error : forall v,
  (exists t, date_setter v = Ok t /\ (v = VDate t \/ (exists s, v = VString s /\ date_time_from_json s = Ok t))) \/
  date_setter v = Raise TypeError.
Proof.
  intros [t|s|]; cbn.
  - left. eauto.
  - destruct (date_time_from_json s) eqn:E; [left; eauto 6|right; reflexivity].
  - right. reflexivity.
Qed.

(** ** what is accepted is what is written *)
Lemma in_andthen : forall {A B} (p : piece A) (q : A -> piece B) s b r,
  In (b, r) (andthen p q s) <-> exists a r', In (a, r') (p s) /\ In (b, r) (q a r').
Proof.
  intros. unfold andthen. rewrite in_flat_map. split.
  - intros ((a & r') & I & J). eauto.
  - intros (a & r' & I & J). exists (a, r'). auto.
Qed.
Lemma in_dig : forall lo hi s d r, In (d, r) (dig lo hi s) -> s = String (digit d) r /\ lo <= d <= hi /\ d < 10.
Proof.
  intros lo hi s d r. unfold dig. destruct s as [|c s]; [intros []|].
  destruct (digit_val c) as [e|] eqn:E; [|intros []].
  destruct ((lo <=? e) && (e <=? hi)) eqn:B; [|intros []]. intros [[= -> ->]|[]].
  apply andb_true_iff in B. rewrite !Nat.leb_le in B.
  unfold digit_val in E. destruct ((48 <=? nat_of_ascii c) && (nat_of_ascii c <=? 57)) eqn:F; [|discriminate].
  apply andb_true_iff in F. rewrite !Nat.leb_le in F. injection E as E.
  split; [|lia]. f_equal. unfold digit. rewrite <- E. replace (48 + (nat_of_ascii c - 48)) with (nat_of_ascii c) by lia.
  symmetry. apply ascii_nat_embedding.
Qed.
Lemma in_two : forall p q s v r, In (v, r) (two p q s) -> exists a b r', In (a, r') (p s) /\ In (b, r) (q r') /\ v = 10 * a + b.
Proof.
  intros p q s v r H. unfold two in H. apply in_andthen in H. destruct H as (a & r' & I & J).
  apply in_andthen in J. destruct J as (b & r2 & K & L). destruct L as [[= <- <-]|[]]. eauto 7.
Qed.
Lemma pad2_digits : forall a b, a < 10 -> b < 10 -> pad2 (10 * a + b) = String (digit a) (String (digit b) EmptyString).
Proof.
  intros a b A B. unfold pad2. replace (10 * a + b) with (b + a * 10) by lia.
  rewrite Nat.div_add, Nat.mod_add by lia. rewrite (Nat.div_small b) by lia. rewrite !(Nat.mod_small) by lia. reflexivity.
Qed.
Lemma in_two_dig : forall l1 h1 l2 h2 s v r, In (v, r) (two (dig l1 h1) (dig l2 h2) s) -> s = (pad2 v ++ r)%string.
Proof.
  intros l1 h1 l2 h2 s v r H. apply in_two in H. destruct H as (a & b & r' & I & J & ->).
  apply in_dig in I. apply in_dig in J. destruct I as (-> & _ & A). destruct J as (-> & _ & B).
  rewrite pad2_digits by assumption. reflexivity.
Qed.
Definition field_text (v : nat) (p : string) : Prop := String.length p <= 2 /\ (String.length p = 2 -> p = pad2 v).
Ltac field_in H :=
  repeat (apply in_app_or in H; destruct H as [H|H]);
  match type of H with
  | In _ (two _ _ _) => apply in_two_dig in H; eexists; split; [exact H|]; split; [cbn; lia|auto]
  | In _ (dig _ _ _) => apply in_dig in H; destruct H as (H & _); eexists (String _ EmptyString); split; [exact H|]; split; [cbn; lia|discriminate]
  end.
Lemma in_pm : forall s v r, In (v, r) (pm s) -> exists p, s = (p ++ r)%string /\ field_text v p.
Proof. intros s v r H. unfold pm, orelse in H. field_in H. Qed.
Lemma in_pH : forall s v r, In (v, r) (pH s) -> exists p, s = (p ++ r)%string /\ field_text v p.
Proof. intros s v r H. unfold pH, orelse in H. field_in H. Qed.
Lemma in_pM : forall s v r, In (v, r) (pM s) -> exists p, s = (p ++ r)%string /\ field_text v p.
Proof. intros s v r H. unfold pM, orelse in H. field_in H. Qed.
Lemma in_pS : forall s v r, In (v, r) (pS s) -> exists p, s = (p ++ r)%string /\ field_text v p.
Proof. intros s v r H. unfold pS, orelse in H. field_in H. Qed.
Lemma in_lit : forall c s u r, In (u, r) (lit c s) -> exists c', s = String c' r /\ lower c' = lower c.
Proof.
  intros c s u r. unfold lit. destruct s as [|c' s]; [intros []|].
  destruct (Ascii.eqb_spec (lower c) (lower c')); [|intros []]. intros [E|[]]. injection E as _ <-. eauto.
Qed.
Definition day_text (v : nat) (p : string) : Prop := String.length p <= 2 /\ (String.length p = 2 -> written_day v p).
Lemma lower_blank : forall c, lower c = " "%char -> c = " "%char.
Proof.
  intros c. destruct c as [[] [] [] [] [] [] [] []]; cbn; intro H; try discriminate H; reflexivity.
Qed.
Lemma in_pd : forall s v r, In (v, r) (pd s) -> exists p, s = (p ++ r)%string /\ day_text v p.
Proof.
  intros s v r H. unfold pd, orelse in H.
  repeat (apply in_app_or in H; destruct H as [H|H]);
  match type of H with
  | In _ (two _ _ _) => apply in_two_dig in H; eexists; split; [exact H|]; split; [cbn; lia|left; reflexivity]
  | In _ (dig _ _ _) => apply in_dig in H; destruct H as (H & _); exists (String (digit v) EmptyString); split; [exact H|]; split; [cbn; lia|discriminate]
  | _ => idtac
  end.
  apply in_andthen in H. destruct H as ([] & r' & I & J). apply in_lit in I. destruct I as (c' & -> & E).
  apply in_dig in J. destruct J as (-> & _ & L). apply lower_blank in E. subst c'.
  exists (String " " (String (digit v) EmptyString)). split; [reflexivity|]. split; [cbn; lia|].
  intros _. right. auto.
Qed.
Lemma in_pY : forall s v r, In (v, r) (pY s) -> s = (pad4 v ++ r)%string.
Proof.
  intros s v r H. unfold pY in H.
  apply in_andthen in H. destruct H as (a & r1 & Ha & H).
  apply in_andthen in H. destruct H as (b & r2 & Hb & H).
  apply in_andthen in H. destruct H as (c & r3 & Hc & H).
  apply in_andthen in H. destruct H as (d & r4 & Hd & H). destruct H as [[= <- <-]|[]].
  apply in_dig in Ha. apply in_dig in Hb. apply in_dig in Hc. apply in_dig in Hd.
  destruct Ha as (-> & _ & A). destruct Hb as (-> & _ & B). destruct Hc as (-> & _ & C). destruct Hd as (-> & _ & D).
  unfold pad4. replace (((a * 10 + b) * 10 + c) * 10 + d) with ((10 * c + d) + (10 * a + b) * 100) by lia.
  rewrite Nat.div_add, Nat.mod_add by lia. rewrite (Nat.div_small (10 * c + d)), (Nat.mod_small (10 * c + d)) by lia.
  rewrite Nat.add_0_l, !pad2_digits by assumption. reflexivity.
Qed.
Lemma slen_app : forall a b, String.length (a ++ b)%string = String.length a + String.length b.
Proof. induction a as [|c a IH]; intro b; cbn; [reflexivity|]. rewrite IH. reflexivity. Qed.
Lemma slen_slashes : forall a, String.length (slashes a) = String.length a.
Proof. induction a as [|c a IH]; cbn; [reflexivity|]. rewrite IH. reflexivity. Qed.
Lemma slen_pad4 : forall n, String.length (pad4 n) = 4. Proof. reflexivity. Qed.
Lemma slen_pad2 : forall n, String.length (pad2 n) = 2. Proof. reflexivity. Qed.
Lemma lower_slash : forall c, lower c = "/"%char -> c = "/"%char.
Proof. intros c. destruct c as [[] [] [] [] [] [] [] []]; cbn; intro H; try discriminate H; reflexivity. Qed.
Lemma lower_dash : forall c, lower c = "-"%char -> c = "-"%char.
Proof. intros c. destruct c as [[] [] [] [] [] [] [] []]; cbn; intro H; try discriminate H; reflexivity. Qed.
Lemma lower_colon : forall c, lower c = ":"%char -> c = ":"%char.
Proof. intros c. destruct c as [[] [] [] [] [] [] [] []]; cbn; intro H; try discriminate H; reflexivity. Qed.

Lemma date_accepts_only : forall s t, String.length s = 10 -> date_time_from_json s = Ok t ->
  at_midnight t /\ exists d, written_day (day t) d /\
    slashes s = (pad4 (year t) ++ String "/" (pad2 (month t) ++ String "/" d))%string.
Proof.
  intros s t L H. unfold date_time_from_json in H. rewrite L in H. cbn [Nat.eqb] in H.
  apply strptime_ok in H. destruct H as [H _]. unfold fmt_date in H.
  apply in_andthen in H. destruct H as (y & r1 & Hy & H).
  apply in_andthen in H. destruct H as (u1 & r2 & Hs1 & H).
  apply in_andthen in H. destruct H as (m & r3 & Hm & H).
  apply in_andthen in H. destruct H as (u2 & r4 & Hs2 & H).
  apply in_andthen in H. destruct H as (d & r5 & Hd & H). destruct H as [[= <- ->]|[]].
  apply in_pY in Hy. apply in_lit in Hs1. apply in_pm in Hm. apply in_lit in Hs2. apply in_pd in Hd.
  destruct Hs1 as (c1 & -> & C1). destruct Hm as (pm_ & -> & M1 & M2). destruct Hs2 as (c2 & -> & C2).
  destruct Hd as (pd_ & -> & D1 & D2).
  apply lower_slash in C1. apply lower_slash in C2. subst c1 c2.
  assert (Ls : String.length (slashes s) = 10) by (rewrite slen_slashes; exact L).
  rewrite Hy in Ls. rewrite slen_app, slen_pad4 in Ls. cbn [String.length] in Ls. rewrite slen_app in Ls.
  cbn [String.length] in Ls. rewrite slen_app in Ls. cbn [String.length] in Ls.
  rewrite M2 in Hy by lia. split; [repeat split|]. exists pd_. cbn [year month day]. split; [apply D2; lia|].
  rewrite Hy. do 4 f_equal. 
  assert (A : forall a, (a ++ "")%string = a) by (induction a as [|c a IH]; cbn; [reflexivity|rewrite IH; reflexivity]).
  rewrite A. reflexivity.
Qed.

Lemma iso_accepts_only : forall s t, String.length s = 20 -> date_time_from_json s = Ok t ->
  exists d, written_day (day t) d /\
    lowercase s = lowercase (pad4 (year t) ++ String "-" (pad2 (month t) ++ String "-" (d ++ String "T"
      (pad2 (hour t) ++ String ":" (pad2 (minute t) ++ String ":" (pad2 (second t) ++ "Z"))))))%string.
Proof.
  intros s t L H. unfold date_time_from_json in H. rewrite L in H. cbn [Nat.eqb] in H.
  apply strptime_ok in H. destruct H as [H _]. unfold fmt_iso in H.
  apply in_andthen in H. destruct H as (y & r1 & Hy & H).
  apply in_andthen in H. destruct H as (u1 & r2 & Hs1 & H).
  apply in_andthen in H. destruct H as (m & r3 & Hm & H).
  apply in_andthen in H. destruct H as (u2 & r4 & Hs2 & H).
  apply in_andthen in H. destruct H as (d & r5 & Hd & H).
  apply in_andthen in H. destruct H as (u3 & r6 & Hs3 & H).
  apply in_andthen in H. destruct H as (h & r7 & Hh & H).
  apply in_andthen in H. destruct H as (u4 & r8 & Hs4 & H).
  apply in_andthen in H. destruct H as (mi & r9 & Hmi & H).
  apply in_andthen in H. destruct H as (u5 & r10 & Hs5 & H).
  apply in_andthen in H. destruct H as (se & r11 & Hse & H).
  apply in_andthen in H. destruct H as (u6 & r12 & Hs6 & H). destruct H as [[= <- ->]|[]].
  apply in_pY in Hy. apply in_lit in Hs1, Hs2, Hs3, Hs4, Hs5, Hs6.
  apply in_pm in Hm. apply in_pd in Hd. apply in_pH in Hh. apply in_pM in Hmi. apply in_pS in Hse.
  destruct Hs1 as (c1 & -> & C1). destruct Hm as (p1 & -> & M1 & M2). destruct Hs2 as (c2 & -> & C2).
  destruct Hd as (p2 & -> & D1 & D2). destruct Hs3 as (c3 & -> & C3).
  destruct Hh as (p3 & -> & H1 & H2). destruct Hs4 as (c4 & -> & C4).
  destruct Hmi as (p4 & -> & I1 & I2). destruct Hs5 as (c5 & -> & C5).
  destruct Hse as (p5 & -> & S1 & S2). destruct Hs6 as (c6 & -> & C6).
  assert (La : forall a b, lowercase (a ++ b)%string = (lowercase a ++ lowercase b)%string)
    by (induction a as [|c a IH]; intro b; cbn; [reflexivity|rewrite IH; reflexivity]).
  rewrite Hy in L. rewrite !slen_app, slen_pad4 in L. cbn [String.length] in L. rewrite !slen_app in L.
  cbn [String.length] in L. rewrite !slen_app in L. cbn [String.length] in L. rewrite !slen_app in L.
  cbn [String.length] in L. rewrite !slen_app in L. cbn [String.length] in L. rewrite !slen_app in L. cbn [String.length] in L.
  exists p2. cbn [year month day hour minute second]. split; [apply D2; lia|].
  rewrite Hy, M2, H2, I2, S2 by lia. rewrite !La. cbn [lowercase]. rewrite !La. cbn [lowercase].
  rewrite !La. cbn [lowercase]. rewrite !La. cbn [lowercase]. rewrite !La. cbn [lowercase].
  rewrite !La. cbn [lowercase]. rewrite C1, C2, C3, C4, C5, C6. reflexivity.
Qed.
