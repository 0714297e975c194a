(** * Independent specification: optical coatings

    The textbook (Abeles, Born and Wolf) description of a coating by its
    tangential fields and characteristic matrix; no reflection recursion, no
    interface matrices, no wave amplitudes. *)
From Coq Require Import Reals List.
From Coquelicot Require Import Complex.
From Verif Require Import Num.
Import ListNotations.
Open Scope R_scope.

Definition Ccos (z : C) : C := ((Cexp ((0, 1)%R * z) + Cexp ((0, -1)%R * z)) / 2)%C.
Definition Csin (z : C) : C := ((Cexp ((0, 1)%R * z) - Cexp ((0, -1)%R * z)) / (2 * (0, 1)%R))%C.

(** the admittance of a layer (permittivity, normal wavevector): ratio of the two
    tangential fields of a wave going down; [p] says which polarization *)
Definition admittance (p : bool) (l : C * C) : C := if p then (snd l / fst l)%C else snd l.

(** the two tangential fields on top of a coating, when a wave of amplitude 1 goes
    down in the substrate (the last layer): through a layer of admittance y and phase
    phi they change by the matrix with rows (cos phi, -i sin phi / y), (-i y sin phi, cos phi) *)
Fixpoint surface_fields (p : bool) (ls : list (C * C)) (ts : list R) : C * C :=
  match ls, ts with
  | [s], _ => (RtoC 1, admittance p s)
  | l :: ls', t :: ts' =>
      let FG := surface_fields p ls' ts' in
      let y := admittance p l in let phi := (snd l * RtoC t)%C in
      ((fst FG * Ccos phi - (0, 1)%R * Csin phi * snd FG / y)%C,
       (snd FG * Ccos phi - (0, 1)%R * Csin phi * y * fst FG)%C)
  | _, _ => (RtoC 0, RtoC 0)
  end.

(** ** Lossless layers in which the wave propagates: (permittivity, wavevector, thickness) *)
Definition layer : Type := (R * R * R)%type.
Definition lay_eps (l : layer) : R := fst (fst l).
Definition lay_k (l : layer) : R := snd (fst l).
Definition lay_t (l : layer) : R := snd l.
(** a medium through which light of wavenumber [nu] and momentum [q] propagates *)
Definition transparent (nu q e k : R) : Prop := 0 < e /\ 0 < k /\ k ^ 2 = e * nu ^ 2 - q ^ 2.
Definition adm (p : bool) (e k : R) : R := if p then k / e else k.
Definition lay_adm (p : bool) (l : layer) : R := adm p (lay_eps l) (lay_k l).
Definition lay_phase (l : layer) : R := lay_k l * lay_t l.

(** the characteristic matrix with rows (A, -i B), (-i C, D), by its four real entries *)
Record rmat := mkR { rA : R; rB : R; rC : R; rD : R }.
Definition rid : rmat := mkR 1 0 0 1.
Definition rmul (m m' : rmat) : rmat :=
  mkR (rA m * rA m' - rB m * rC m') (rA m * rB m' + rB m * rD m')
      (rC m * rA m' + rD m * rC m') (rD m * rD m' - rC m * rB m').
Definition layer_matrix (p : bool) (l : layer) : rmat :=
  mkR (cos (lay_phase l)) (sin (lay_phase l) / lay_adm p l) (lay_adm p l * sin (lay_phase l)) (cos (lay_phase l)).
Definition char_matrix (p : bool) (ls : list layer) : rmat :=
  fold_right (fun l m => rmul (layer_matrix p l) m) rid ls.
(** half the trace *)
Definition half_trace (m : rmat) : R := (rA m + rD m) / 2.
