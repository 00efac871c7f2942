(** Commutative rings and fields as records, used for the numbers the solvers
    compute with.  The code uses complex floating point numbers; here the
    arithmetic is exact (see DESIGN.md). *)
From Coq Require Import ZArith List Ring.
Import ListNotations.

Record cring := mkRing {
  car :> Type;
  k0 : car; k1 : car;
  kadd : car -> car -> car; kmul : car -> car -> car;
  ksub : car -> car -> car; kopp : car -> car;
  klaws : ring_theory k0 k1 kadd kmul ksub kopp (@eq car) }.
Arguments k0 {_}. Arguments k1 {_}. Arguments kadd {_}. Arguments kmul {_}.
Arguments ksub {_}. Arguments kopp {_}.

Declare Scope K_scope.
Infix "+" := kadd : K_scope.
Infix "*" := kmul : K_scope.
Infix "-" := ksub : K_scope.
Notation "- x" := (kopp x) : K_scope.
Notation "0" := k0 : K_scope.
Notation "1" := k1 : K_scope.
Delimit Scope K_scope with K.

(** A finite sum. *)
Definition ksum {K : cring} (l : list K) : K := fold_right kadd k0 l.

(** The image of an integer. *)
Definition kz {K : cring} (z : Z) : K :=
  match z with
  | Z0 => k0
  | Zpos p => Pos.iter (kadd k1) k0 p
  | Zneg p => kopp (Pos.iter (kadd k1) k0 p)
  end.

(** Fields: a ring with inverses of non-zero elements. *)
Record cfield := mkField {
  fring :> cring;
  kinv : fring -> fring;
  kinv_l : forall x : fring, x <> k0 -> kmul (kinv x) x = k1;
  k1_neq_k0 : (k1 : fring) <> k0 }.
Arguments kinv {_}.

(** The integers, for examples. *)
Definition Zring : cring := mkRing Z 0%Z 1%Z Z.add Z.mul Z.sub Z.opp Zth.
