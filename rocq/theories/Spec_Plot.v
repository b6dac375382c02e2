(** What the plotting properties talk about, independently of the code. *)
From Coq Require Import String Reals List.
From Verif Require Import Numpy Model_Plot.
Import ListNotations.
Open Scope R_scope.

(** two dictionaries with the same contents *)
Definition same_dict (d e : dict) : Prop := forall k, dget d k = dget e k.
(** the dictionary without the two colour limits *)
Definition without_limits (d e : dict) : Prop :=
  dget e "vmin" = None /\ dget e "vmax" = None /\
  (forall k, k <> "vmin"%string -> k <> "vmax"%string -> dget e k = dget d k).
(** an option is absent or a number *)
Definition number_if_given (d : dict) (k : string) : Prop := dget d k = None \/ exists x, dget d k = Some (ONum x).
(** equal up to 1e-8 + 1e-5 |b| *)
Definition close (a b : R) : Prop := Rabs (a - b) <= / 10 ^ 8 + / 10 ^ 5 * Rabs b.
(** the limits given in the dictionary agree with clim *)
Definition agrees (clim : option (R * R)) (d : dict) : Prop :=
  forall lo hi, clim = Some (lo, hi) ->
    (forall x, dget d "vmin" = Some (ONum x) -> close x lo) /\ (forall x, dget d "vmax" = Some (ONum x) -> close x hi).
(** arguments whose colour limits make sense *)
Definition sensible (a : pargs) (h : heap) : Prop :=
  number_if_given (h (pa_contourOpts a)) "vmin" /\ number_if_given (h (pa_contourOpts a)) "vmax" /\
  agrees (pa_clim a) (h (pa_contourOpts a)).
(** some interpolated value is a number *)
Definition some_data (a : pargs) : Prop := exists x, In (Some x) (pa_grid a).
(** the values that are coloured: absolute values on a log scale *)
Definition coloured (a : pargs) (v : R) : Prop :=
  exists x, In (Some x) (pa_grid a) /\ v = (if pa_log a then Rabs x else x).
Definition least (P : R -> Prop) (v : R) : Prop := P v /\ forall w, P w -> v <= w.
Definition greatest (P : R -> Prop) (v : R) : Prop := P v /\ forall w, P w -> w <= v.
(** documented limits: clim, else the option, else the data *)
Definition lower_limit (a : pargs) (h : heap) (v : R) : Prop :=
  match pa_clim a with
  | Some (lo, _) => v = lo
  | None => match dget (h (pa_contourOpts a)) "vmin" with Some o => o = ONum v | None => least (coloured a) v end
  end.
Definition upper_limit (a : pargs) (h : heap) (v : R) : Prop :=
  match pa_clim a with
  | Some (_, hi) => v = hi
  | None => match dget (h (pa_contourOpts a)) "vmax" with Some o => o = ONum v | None => greatest (coloured a) v end
  end.
(** a drawing call that draws level lines *)
Definition is_contour (d : draw) : Prop := exists vals kw, d = Contour vals kw.
