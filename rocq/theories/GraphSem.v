(** Specification: the linear map denoted by a ZX-diagram.  This file does not
    mirror code; it is the mathematical meaning against which the rewriting
    code is judged. *)
From Coq Require Import Reals ZArith QArith Qcanon List Bool Arith.
From Verif Require Import CNum Base ScalarModel GraphModel.
Import ListNotations.
Open Scope C_scope.

Definition assignment := nat -> bool.
Definition upd (x : assignment) (v : nat) (b : bool) : assignment :=
  fun u => if Nat.eqb u v then b else x u.

Definition isX (g : graph) (v : nat) : bool := vtype_eqb (vty g v) XSP.
Definition isB (g : graph) (v : nat) : bool := vtype_eqb (vty g v) BOUNDARY.

Definition tog (b : bool) (e : etype) : etype := if b then toggle_edge e else e.

(** Weight of a wire: the identity or the Hadamard matrix (or no wire). *)
Definition wt (e : option etype) (a b : bool) : C :=
  match e with
  | None => C1
  | Some SIMPLE => dlt a b
  | Some HADAMARD => sq2p (-1) * sgn (a && b)
  end.

(** An X spider is a Z spider with a Hadamard on each leg. *)
Definition ew (g : graph) (u v : nat) (a b : bool) : C :=
  wt (option_map (tog (xorb (isX g u) (isX g v))) (edge_type g u v)) a b.

Definition ephase (p : Qc) (b : bool) : C := if b then cexp p else C1.

(** Weight of a spider with phase p at bit b; boundaries carry no phase. *)
Definition pw (g : graph) (v : nat) (b : bool) : C :=
  if isB g v then C1 else ephase (phase g v) b.

(** Product over unordered pairs of a list. *)
Fixpoint pprod (f : nat -> nat -> C) (l : list nat) : C :=
  match l with [] => C1 | v :: l' => cprod (f v) l' * pprod f l' end.

(** Product of all weights of the part of the diagram on the vertices L. *)
Definition integL (L : list nat) (g : graph) (x : assignment) : C :=
  to_number (gscalar g) * cprod (fun v => pw g v (x v)) L
  * pprod (fun u v => ew g u v (x u) (x v)) L.

(** Sum over all bit values of the listed vertices. *)
Fixpoint sumv (l : list nat) (F : assignment -> C) (x : assignment) : C :=
  match l with
  | [] => F x
  | v :: l' => sumv l' F (upd x v false) + sumv l' F (upd x v true)
  end.

Definition internal (g : graph) : list nat := filter (fun v => negb (isB g v)) (vertices g).

(** The value of the diagram for given bits on its boundary vertices. *)
Definition sem (g : graph) (b : assignment) : C := sumv (internal g) (integL (vertices g) g) b.

(** Diagrams without H-boxes: every vertex is a boundary, Z or X vertex. *)
Definition zx_types (g : graph) : Prop := forall v, In v (vertices g) -> vty g v <> HBOX.

(** Same interface and same value for all boundary bits. *)
Definition same_map (g g' : graph) : Prop :=
  ginputs g' = ginputs g /\ goutputs g' = goutputs g /\ forall b, sem g' b = sem g b.
