(** Model of geoana/plotting_utils.py: control flow, option dictionaries and drawing calls of
    plot2Ddata.  Interpolation and matplotlib are external: the interpolated values are an
    argument, drawing calls are recorded and assumed to succeed once their keyword arguments
    are well formed. *)
From Coq Require Import String Reals List Arith Bool.
From Verif Require Import Numpy.
Import ListNotations.
Open Scope string_scope.
Open Scope R_scope.
Open Scope list_scope.

(** l.44-54, values of the options; [OOther] is anything the function does not look at *)
Inductive optval : Type :=
| ONum (x : R) | ONone | OInt (z : nat) | OLevels (l : list R) | ONorm (log : bool) (vmin vmax : R) | OOther (tag : nat).
(** a Python dictionary (l.44-54); at most one entry per key is meant, [dget] reads the first *)
Definition dict := list (string * optval).
Definition dget (d : dict) (k : string) : option optval :=
  option_map snd (find (fun e => String.eqb (fst e) k) d).
Definition dpop (d : dict) (k : string) : dict := filter (fun e => negb (String.eqb (fst e) k)) d.
Definition has (d : dict) (k : string) : bool := match dget d k with Some _ => true | None => false end.
(** [{defaults, **user}] (l.180, 184, 225, 228, 232, 252), as a mapping *)
Definition merge (defaults user : dict) : dict := user ++ filter (fun e => negb (has user (fst e))) defaults.

(** dictionaries live on a heap: two arguments can be the same object, and the defaults [{}]
    are objects shared by all calls *)
Definition heap := nat -> dict.
Definition store (h : heap) (l : nat) (d : dict) : heap := fun i => if Nat.eqb i l then d else h i.

(** the drawing calls, l.181, 185, 226, 229, 233, 260, 269, 273 *)
Inductive draw : Type :=
| Contourf (values : list (option R)) (kw : dict)
| Contour (values : list (option R)) (kw : dict)
| Streamplot (kw : dict)
| Shade (kw : dict)
| Points
| Save.

(** arguments (l.32-55): locations of the four dictionaries, clim as (min, max), the interpolated grid
    (scalar data or Euclidean norm of the vectors; [None] is nan) *)
Record pargs : Type := PA {
  pa_vec : bool; pa_level : bool; pa_shade : bool; pa_dataloc : bool; pa_log : bool;
  pa_ax : bool; pa_figname : bool; pa_ncontour : nat; pa_clim : option (R * R);
  pa_contourOpts : nat; pa_levelOpts : nat; pa_streamplotOpts : nat; pa_shadeOpts : nat;
  pa_grid : list (option R) }.

(** l.125, np.isclose(a, b): |a - b| <= 1e-8 + 1e-5 |b| *)
Definition isclose (a b : R) : bool := Rleb (Rabs (a - b)) (/ 10 ^ 8 + / 10 ^ 5 * Rabs b).

(** l.171, 216, np.linspace(a, b, n + 1) *)
Definition linspace (a b : R) (n : nat) : list R :=
  match n with
  | O => [a]
  | _ => map (fun i => a + INR i * ((b - a) / INR n)) (seq 0 (S n))
  end.
(** l.168, 213, np.log10, np.logspace: 10 to the linspace *)
Definition log10 (x : R) : R := ln x / ln 10.
Definition logspace (a b : R) (n : nat) : list R := map (fun e => exp (e * ln 10)) (linspace a b n).

(** plotting_utils.py l.120-134, one key: [lim] is vlimits[i] before, the result its value
    after and the heap.  A limit that is neither a number nor None is taken to raise TypeError
    here (the code raises it a little later, in np.linspace, before anything is drawn). *)
Definition limit_key (key : string) (lim : option R) (loc : nat) (h : heap) : result (option R) * heap :=
  match dget (h loc) key with
  | None => (Ok lim, h)
  | Some v =>
      match lim with
      | None =>
          (match v with ONum x => Ok (Some x) | ONone => Ok None | _ => Raise TypeError end, store h loc (dpop (h loc) key))
      | Some b =>
          match v with
          | ONum a => if isclose a b then (Ok (Some b), store h loc (dpop (h loc) key)) else (Raise OtherError, h)
          | _ => (Raise TypeError, h)
          end
      end
  end.

(** l.159, 206, DATA[dataselection]: the entries that are numbers *)
Fixpoint finite (l : list (option R)) : list R :=
  match l with [] => [] | Some x :: l' => x :: finite l' | None :: l' => finite l' end.
(** l.164-165, 209-210, .min() and .max(); empty: ValueError *)
Definition amin (l : list R) : result R := match l with [] => Raise ValueError | x :: l' => Ok (fold_left Rmin l' x) end.
Definition amax (l : list R) : result R := match l with [] => Raise ValueError | x :: l' => Ok (fold_left Rmax l' x) end.
Definition or_default (v : option R) (d : result R) : result R := match v with Some x => Ok x | None => d end.

(** l.233, a call f(..., k1=v1, ..., **kw): a key given twice is a TypeError *)
Definition call_kw (explicit kw : dict) : result dict :=
  if existsb (fun e => has kw (fst e)) explicit then Raise TypeError else Ok (explicit ++ kw).

(** l.164-172 and l.209-217 *)
Definition levels_of (a : pargs) (vmin vmax : R) : list R :=
  if pa_log a then logspace (log10 vmin) (log10 vmax) (pa_ncontour a) else linspace vmin vmax (pa_ncontour a).

(** hillshade, l.237-250, at one grid node where np.gradient has returned (x, y).  numpy's
    arctan2 is an argument, any real number. *)
Definition hillshade (x y aspect azimuth angle_altitude : R) : R :=
  let azimuth := 360 - azimuth in
  let slope := PI / 2 - atan (sqrt (x * x + y * y)) in
  let azimuthrad := azimuth * PI / 180 in
  let altituderad := angle_altitude * PI / 180 in
  let shaded := sin altituderad * sin slope + cos altituderad * cos slope * cos ((azimuthrad - PI / 2) - aspect) in
  255 * (shaded + 1) / 2.

(** l.114-277.  Result: exception or the number of returned values, the drawing calls made, the
    heap.  [method], [mask], [nx], [ny] only influence the grid of values. *)
Definition plot2Ddata (a : pargs) (h : heap) : result nat * list draw * heap :=
  let lim0 := match pa_clim a with Some (lo, _) => Some lo | None => None end in
  let lim1 := match pa_clim a with Some (_, hi) => Some hi | None => None end in
  let c := pa_contourOpts a in
  match limit_key "vmin" lim0 c h with
  | (Raise e, h) => (Raise e, [], h)
  | (Ok vmin, h) =>
    match limit_key "vmax" lim1 c h with
    | (Raise e, h) => (Raise e, [], h)
    | (Ok vmax, h) =>
      let grid := if pa_log a then map (option_map Rabs) (pa_grid a) else pa_grid a in
      match or_default vmin (amin (finite grid)), or_default vmax (amax (finite grid)) with
      | Raise e, _ => (Raise e, [], h)
      | _, Raise e => (Raise e, [], h)
      | Ok vmin, Ok vmax =>
        let levels := levels_of a vmin vmax in
        let d1 := [Contourf grid (merge [("levels", OLevels levels); ("norm", ONorm (pa_log a) vmin vmax); ("zorder", OInt 1)] (h c))] in
        let d2 := if pa_vec a then [Streamplot (merge [("zorder", OInt 4); ("color", OOther 0)] (h (pa_streamplotOpts a)))] else [] in
        let lopts := merge [("levels", OLevels levels); ("zorder", OInt 3)] (h (pa_levelOpts a)) in
        let lcall := if pa_vec a then call_kw [("levels", OLevels levels); ("zorder", OInt 3)] lopts else Ok lopts in
        match (if pa_level a then rmap (fun kw => [Contour grid kw]) lcall else Ok []) with
        | Raise e => (Raise e, d1 ++ d2, h)
        | Ok d3 =>
          let d4 := if pa_shade a then
              [Shade (merge [("cmap", OOther 1); ("alpha", OOther 2); ("antialiased", OOther 3); ("zorder", OInt 2)] (h (pa_shadeOpts a)))] else [] in
          let d5 := if pa_dataloc a then [Points] else [] in
          let drawn := d1 ++ d2 ++ d3 ++ d4 ++ d5 in
          if pa_figname a then
            if pa_ax a then (Raise NameError, drawn, h)
            else (Ok (if pa_level a then 3 else 2)%nat, drawn ++ [Save], h)
          else (Ok (if pa_level a then 3 else 2)%nat, drawn, h)
        end
      end
    end
  end.
