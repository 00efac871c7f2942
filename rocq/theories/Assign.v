(** Assignments to attributes of [Config] and [Term] (terms.py:194-197, 554-651),
    and the constructor of [Config] with the logger that is in use: Config.v and
    Term.v have the exit of [logger.critical] built in. *)
From Coq Require Import ZArith List Bool.
From Verif Require Import Base NdArray Config Model Term Logger Single.
Import ListNotations.
Open Scope list_scope.
Open Scope Z_scope.

(** terms.py:23-26 [_config_shape_small_dimension] *)
Definition config_shape_small_dimension (a : nd) : bool := Nat.leb (length (shp a)) 4.

Section Assign.
Variable st : lstate.
(** A check followed by [logger.critical]; the messages given to the logger *)
Definition say (b : bool) : result (list lvl) := if b then Ok [] else critical st (Ok [Critical]).
(** terms.py:29-39 [_check_config] *)
Definition check_config_log (a : nd) : result (list lvl) :=
  x <- say (config_shape_legal a) ;; y <- say (config_values_legal a) ;; Ok (x ++ y ++ (if config_shape_small_dimension a then [] else [Warning])).
(** terms.py:140-150 [_validate_config_is_legal].  numpy allows [sum(axis=0)] for
    an array without axes, which has no edges *)
Definition validate_log (a : nd) : result (list lvl) :=
  x <- check_config_log a ;; if total a =? 0 then Ok x else e <- config_edges_legal a ;; y <- say e ;; Ok (x ++ y).
(** terms.py:264-282 [Config.__init__] *)
Definition config_init_log (a : nd) (mm m : Z) : result (config * list lvl) := x <- validate_log a ;; Ok (mkConfig a mm m, x).
(** terms.py:194-197: [c.config = a] *)
Definition config_set (c : config) (a : nd) : result (config * list lvl) := x <- check_config_log a ;; Ok (mkConfig a (max_mods c) (mods c), x).

(** terms.py:587-597, 617-627, 641-651: [t.exp_shift = v], and [f_arg], [g_arg] *)
Definition vector_set (c : config) (v : option vec) : result (option vec) :=
  match v with
  | None => Ok None
  | Some x => _ <- say (Nat.eqb (length (v2 x)) (n_spatial c)) ;; Ok (Some x)
  end.
(** terms.py:554-558: [t.constant_prefactor = x] *)
Definition prefactor_set {T} (x : pyval T) : result (pyval T) := _ <- say (is_number x) ;; Ok x.
End Assign.
