(** What the interferogram properties talk about, independently of the code. *)
From Coq Require Import Ascii String Reals List Arith.
From Verif Require Import Numpy Model_Interf.
Import ListNotations.
Open Scope R_scope.

(** ** dates *)
(** the Gregorian calendar *)
Definition is_leap (y : nat) : Prop :=
  (exists k, y = 4 * k)%nat /\ (~ (exists k, y = 100 * k)%nat \/ (exists k, y = 400 * k)%nat).
Inductive month_length (y : nat) : nat -> nat -> Prop :=
| ML_31 : forall m, In m [1; 3; 5; 7; 8; 10; 12]%nat -> month_length y m 31
| ML_30 : forall m, In m [4; 6; 9; 11]%nat -> month_length y m 30
| ML_29 : is_leap y -> month_length y 2 29
| ML_28 : ~ is_leap y -> month_length y 2 28.
Definition calendar (t : datetime) : Prop :=
  (1 <= year t <= 9999 /\ 1 <= month t <= 12 /\ (exists n, month_length (year t) (month t) n /\ 1 <= day t <= n) /\
   hour t <= 23 /\ minute t <= 59 /\ second t <= 59)%nat.
(** how dates are written *)
Definition digit (n : nat) : ascii := ascii_of_nat (48 + n).
Definition pad2 (n : nat) : string := String (digit (n / 10 mod 10)) (String (digit (n mod 10)) EmptyString).
Definition pad4 (n : nat) : string := (pad2 (n / 100) ++ pad2 (n mod 100))%string.
(** 2009/04/06 and 2009-04-06 *)
Definition written_date (sep : ascii) (t : datetime) : string :=
  (pad4 (year t) ++ String sep (pad2 (month t) ++ String sep (pad2 (day t))))%string.
(** 2009-04-06T01:32:39Z *)
Definition written_iso (t : datetime) : string :=
  (pad4 (year t) ++ String "-" (pad2 (month t) ++ String "-" (pad2 (day t) ++ String "T"
   (pad2 (hour t) ++ String ":" (pad2 (minute t) ++ String ":" (pad2 (second t) ++ "Z"))))))%string.
Definition at_midnight (t : datetime) : Prop := hour t = 0%nat /\ minute t = 0%nat /\ second t = 0%nat.

(** ** raster *)
(** the cell in column a and row b (from the top) of the raster whose top left corner is the
    location *)
Definition cell_left (g : interferogram) (a : nat) : R := location0 g + INR a * pixel0 g.
Definition cell_top (g : interferogram) (b : nat) : R := location1 g - INR b * pixel1 g.
(** what is shown for a stored sample: nothing for 0 and nan *)
Definition shown (s : R) (x : option R) (y : option R) : Prop :=
  match x with
  | Some v => (v = 0 /\ y = None) \/ (v <> 0 /\ y = Some (v * s))
  | None => y = None
  end.

(** ** line of sight *)
(** track direction (east, north) for an azimuth in degrees, and the direction to its right *)
Definition track (az : R) : R * R := (sin (az * PI / 180), cos (az * PI / 180)).
Definition right_of (az : R) : R * R := (cos (az * PI / 180), - sin (az * PI / 180)).
Definition unit3 (v : R * R * R) : Prop := let '(x, y, z) := v in x * x + y * y + z * z = 1.
Definition horizontal_dot (v : R * R * R) (d : R * R) : R := let '(x, y, _) := v in x * fst d + y * snd d.
Definition up (v : R * R * R) : R := snd v.
(** the point of the unit sphere at longitude x and latitude y (degrees) *)
Definition sphere_point (x y : R) : R * R * R :=
  let x := x * PI / 180 in let y := y * PI / 180 in (cos y * cos x, cos y * sin x, sin y).
(** east and north at that point *)
Definition east (x y : R) : R * R * R := let x := x * PI / 180 in (- sin x, cos x, 0).
Definition north (x y : R) : R * R * R :=
  let x := x * PI / 180 in let y := y * PI / 180 in (- sin y * cos x, - sin y * sin x, cos y).
Definition dot3 (u v : R * R * R) : R := let '(a, b, c) := u in let '(d, e, f) := v in a * d + b * e + c * f.
(** signed angular distance to the left of the great circle through (ox, oy) with that azimuth *)
Definition left_angle (x y ox oy az d : R) : Prop :=
  -90 <= d <= 90 /\
  sin (d * PI / 180) = - (cos (az * PI / 180) * dot3 (east ox oy) (sphere_point x y)
                        - sin (az * PI / 180) * dot3 (north ox oy) (sphere_point x y)).
(** a satellite above the earth *)
Definition orbiting (g : interferogram) : Prop := 0 < earth_radius g /\ 0 < satellite_altitude g.
(** the same text up to letter case *)
Fixpoint lowercase (s : string) : string := match s with EmptyString => EmptyString | String c s' => String (lower c) (lowercase s') end.
(** a day below 10 may also be written with a leading blank *)
Definition written_day (d : nat) (s : string) : Prop := s = pad2 d \/ ((d < 10)%nat /\ s = String " " (String (digit d) EmptyString)).
(** the angle at the centre of the earth between the reference point and the satellite's nadir *)
Definition nadir_angle (g : interferogram) (beta : R) : Prop :=
  -90 <= ref_incidence g - beta <= 90 /\
  sin ((ref_incidence g - beta) * PI / 180) =
    earth_radius g / (earth_radius g + satellite_altitude g) * sin (ref_incidence g * PI / 180).
(** offset of the satellite (abeam of the point) from a point whose angle to the nadir track is
    [b] degrees, to the left of the track direction and upwards *)
Definition satellite_left (g : interferogram) (b : R) : R := (earth_radius g + satellite_altitude g) * sin (b * PI / 180).
Definition satellite_up (g : interferogram) (b : R) : R :=
  (earth_radius g + satellite_altitude g) * cos (b * PI / 180) - earth_radius g.

(** ** how the numbers in a date may be written *)
(** with two digits, or with one when they are below ten *)
Definition numeral (n : nat) (s : string) : Prop := s = pad2 n \/ ((n < 10)%nat /\ s = String (digit n) EmptyString).
(** a day below ten also with a blank in front *)
Definition day_numeral (n : nat) (s : string) : Prop := numeral n s \/ ((n < 10)%nat /\ s = String " " (String (digit n) EmptyString)).
Definition iso_text (t : datetime) (s : string) : Prop := exists mo d T h mi se Z,
  numeral (month t) mo /\ day_numeral (day t) d /\ (T = "T" \/ T = "t")%char /\ numeral (hour t) h /\ numeral (minute t) mi /\
  numeral (second t) se /\ (Z = "Z" \/ Z = "z")%char /\
  s = (pad4 (year t) ++ String "-" (mo ++ String "-" (d ++ String T (h ++ String ":" (mi ++ String ":" (se ++ String Z EmptyString))))))%string.
