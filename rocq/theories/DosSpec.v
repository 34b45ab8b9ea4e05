(** Specification: fraction of the Brillouin zone below an energy. *)
From Coq Require Import Reals List.
From Coquelicot Require Import Coquelicot.
Import ListNotations.
Local Open Scope R_scope.

(** A triangle with values a, b, c at its corners is parametrized by (u, v) with
    0 <= u, v and u + v <= 1; the linear interpolation is a + u (b - a) + v (c - a).
    [fraction a b c E] is the fraction of its area at which it does not exceed E. *)
Definition indicator (a b c E u v : R) : R := if Rle_dec (a + u * (b - a) + v * (c - a)) E then 1 else 0.
Definition fraction (a b c E : R) : R :=
  2 * RInt (V := R_CompleteNormedModule) (fun u => RInt (V := R_CompleteNormedModule) (indicator a b c E u) 0 (1 - u)) 0 1.

(** The two triangles of the cell (i, j) of the periodic mesh. *)
Definition lower_tri (N i j : nat) : list (nat * nat) := [(i, j); ((i + 1) mod N, j); (i, (j + 1) mod N)]%nat.
Definition upper_tri (N i j : nat) : list (nat * nat) := [((i + 1) mod N, (j + 1) mod N); ((i + 1) mod N, j); (i, (j + 1) mod N)]%nat.
Definition all_tris (N : nat) : list (list (nat * nat)) :=
  flat_map (fun i => flat_map (fun j => [lower_tri N i j; upper_tri N i j]) (seq 0 N)) (seq 0 N).

Definition at_ (e : nat -> nat -> R) (v : nat * nat) : R := e (fst v) (snd v).

(** All corners of a triangle have energy E. *)
Definition flat_at (e : nat -> nat -> R) (E : R) (t : list (nat * nat)) : Prop := forall v, In v t -> at_ e v = E.

Definition no_flat (N : nat) (e : nat -> nat -> R) : Prop := forall t E, In t (all_tris N) -> ~ flat_at e E t.

Definition sumf {A} (f : A -> R) (l : list A) : R := fold_right Rplus 0 (map f l).
Definition mesh (N : nat) : list (nat * nat) := list_prod (seq 0 N) (seq 0 N).
Definition mean (N : nat) (g : nat -> nat -> R) : R := sumf (at_ g) (mesh N) / INR (N * N).

(** The fraction for a triangle of the mesh, corners in ascending order of energy. *)
Definition lowest (x y z : R) : R := Rmin x (Rmin y z).
Definition highest (x y z : R) : R := Rmax x (Rmax y z).
Definition middle (x y z : R) : R := x + y + z - lowest x y z - highest x y z.
Definition tri_fraction (e : nat -> nat -> R) (E : R) (t : list (nat * nat)) : R :=
  match map (at_ e) t with
  | [x; y; z] => fraction (lowest x y z) (middle x y z) (highest x y z) E
  | _ => 0
  end.

(** Fraction of the Brillouin zone below E: all 2 N^2 triangles have the same area. *)
Definition zone_fraction (N : nat) (e : nat -> nat -> R) (E : R) : R :=
  sumf (tri_fraction e E) (all_tris N) / (2 * INR (N * N)).
