(** Specification of SingleTerm (C89). *)
From Coq Require Import String Ascii ZArith QArith Qabs List.
From Verif Require Import Base Model Single.
Import ListNotations.

(** What each attribute must be. *)
Inductive is_array {T} : pyval T -> Prop := array_v : forall v, is_array (VArr v).
Inductive is_dag {T} : pyval T -> Prop := dag_p : is_dag (VStr "+") | dag_m : is_dag (VStr "-").
Inductive is_real {T} : pyval T -> Prop :=
| real_i : forall z, is_real (VInt z) | real_b : forall b, is_real (VBool b) | real_f : forall x, is_real (VFloat x) | real_d : forall x, is_real (VFloat64 x).
Inductive is_index {T} : pyval T -> Prop := index_i : forall z, (0 <= z)%Z -> is_index (VInt z) | index_b : forall b, is_index (VBool b).

(** One integer, as in all models in one dimension. *)
Definition one_site (v : vec) : Prop := exists z, v = ivec [z].
(** Without colon and line feed: the text after the first colon is not part of the
    type. *)
Definition plain_name (s : string) : Prop := forall n, String.get n s <> Some ":"%char /\ String.get n s <> Some (ascii_of_nat 10).
(** Terms that can be told apart only by digits after the second. *)
Definition near_term (h h' : hterm Q) : Prop :=
  ht_type h = ht_type h' /\ ht_psi h = ht_psi h' /\ ht_phi h = ht_phi h' /\ ht_dag h = ht_dag h' /\ ht_index h = ht_index h' /\
  (Qabs (ht_coupling h - ht_coupling h') <= 1 # 100)%Q /\ (Qabs (ht_freq h - ht_freq h') <= 1 # 100)%Q.
