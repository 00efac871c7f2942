(** ggce/engine/system.py:116-517 - assembling the closed system.  Files are
    in Checkpoint.v; here [root] is None. *)
From Coq Require Import String ZArith List Bool.
From Verif Require Import Base NdArray Config Model Space Render Term Equation.
Import ListNotations.
Open Scope list_scope.
Open Scope Z_scope.

(** system.py:142-155 [_append_master_dictionary].  Copying the first
    dictionary is the same as appending its entries one by one. *)
Definition append_master (master d : sdict (list vec)) : sdict (list vec) :=
  fold_left (fun acc kv => fold_left (fun acc' v => sappend (fst kv) v acc') (snd kv) acc) d master.

(** system.py:174-177: a set of tuples keeps one representative - the first
    inserted - of numerically equal tuples (1 == 1.0 in Python); its iteration
    order is the oracle [ord]. *)
Fixpoint dedup (seen : list (list Z)) (l : list vec) : list vec :=
  match l with
  | [] => []
  | v :: r => if existsb (eqlZ (v2 v)) seen then dedup seen r else v :: dedup (v2 v :: seen) r
  end.

Definition determine_unique (ord : string -> list vec -> list vec) (d : sdict (list vec)) : sdict (list vec) :=
  map (fun kv => (fst kv, ord (fst kv) (dedup [] (snd kv)))) d.

Record system (T : Type) := mkSys {
  s_model : model T;
  s_gen : list (Z * list (equation T));
  s_fargs : sdict (list vec);
  s_eqs : list (Z * list (equation T)) }.
Arguments mkSys {T}. Arguments s_model {T}. Arguments s_gen {T}.
Arguments s_fargs {T}. Arguments s_eqs {T}.

(** system.py:157-167, 218-221 *)
Definition gen_block {T} (m : model T) (kv : Z * list config) : result (Z * list (equation T)) :=
  es <- mapM (fun c => equation_from m (cfg c)) (snd kv) ;; Ok (fst kv, es).

(** system.py:215-230 [_initialize_generalized_equations]; the result of
    [_predict_total_terms] is only logged, but computing it may raise. *)
Definition generalized {T} (ord : string -> list vec -> list vec) (m : model T)
    (space : list (Z * list config)) : result (list (Z * list (equation T)) * sdict (list vec)) :=
  blocks <- mapM (gen_block m) space ;;
  g <- green_equation m ;;
  let gen := (blocks ++ [(0, [g])])%list in
  let master := fold_left (fun acc e => append_master acc (e_fargs e)) (flat_map snd gen) [] in
  let L := sumZ (map (fun kv => Z.of_nat (List.length (snd kv))) gen) in
  _ <- predict_total_terms m L ;;
  Ok (gen, determine_unique ord master).

(** system.py:179-184 [_get_total_terms] *)
Definition total_terms {T} (s : system T) : Z :=
  sumZ (map (fun kv => Z.of_nat (List.length (snd kv))) (s_fargs s)).

(** system.py:243-250: all copies of one generalized equation *)
Definition expand {T} (fl : sdict (list vec)) (e : equation T) : result (list (equation T)) :=
  match sget (phonon_config_id (cfg (t_cfg (e_index e)))) fl with
  | None => Err KeyError
  | Some ds => mapM (init_full e) ds
  end.

(** system.py:232-260 [_initialize_equations] (the count comparison is only
    logged) *)
Definition full_equations {T} (fl : sdict (list vec)) (gen : list (Z * list (equation T)))
  : result (list (Z * list (equation T))) :=
  mapM (fun kv => ls <- mapM (expand fl) (snd kv) ;; Ok (fst kv, concat ls)) gen.

(** [set(x) == set(y)] on strings *)
Definition smem (x : string) (l : list string) : bool := existsb (String.eqb x) l.
Definition sset_eqb (a b : list string) : bool :=
  forallb (fun x => smem x b) a && forallb (fun x => smem x a) b.

Definition index_ids {T} (eqs : list (equation T)) : list string := map (fun e => tid (e_index e)) eqs.
Definition rhs_ids {T} (eqs : list (equation T)) : list string :=
  flat_map (fun e => map tid (e_terms e)) eqs.

(** system.py:262-281 [_final_checks] *)
Definition final_checks {T} (eqs : list (Z * list (equation T))) : result unit :=
  let all := flat_map snd eqs in
  guard (sset_eqb (index_ids all) (rhs_ids all)) SystemExit.

(** system.py:381-438 [System.__init__] and [_prime_system] without a root
    directory and without preloaded state *)
Definition prime_system {T} (ord : string -> list vec -> list vec) (m : model T) : result (system T) :=
  space <- generate_space m ;;
  ' (gen, fl) <- generalized ord m space ;;
  eqs <- full_equations fl gen ;;
  _ <- final_checks eqs ;;
  Ok (mkSys m gen fl eqs).

(** system.py:496-503 [get_basis(full_basis=True)]: the dictionary maps an id
    to the last position at which it occurs, positions counted over all
    equations in order. *)
Definition sset {A} (k : string) (v : A) (d : sdict A) : sdict A :=
  (fix go d := match d with
   | [] => [(k, v)]
   | (k', v') :: r => if String.eqb k' k then (k', v) :: r else (k', v') :: go r
   end) d.

Definition number_ids (ids : list string) : sdict nat :=
  fold_left (fun d p => sset (snd p) (fst p) d) (combine (seq 0 (List.length ids)) ids) [].

Definition full_basis {T} (s : system T) : sdict nat := number_ids (index_ids (flat_map snd (s_eqs s))).

(** system.py:505-515 [get_basis(full_basis=False)] *)
Definition local_basis {T} (s : system T) : list (Z * sdict nat) :=
  map (fun kv => (fst kv, number_ids (index_ids (snd kv)))) (s_eqs s).
