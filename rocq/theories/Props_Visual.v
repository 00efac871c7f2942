(** Property theorems about what is printed (C68). *)
From Coq Require Import String ZArith List Bool Lia Permutation.
From Verif Require Import Base NdArray Config Spec Model Render Term Equation System Spec_engine HModel Spec_model Visual Spec_visual
  Props_Engine Props_Model Props_Solve.
From Verif Require Visual_proofs Order_proofs.
Import ListNotations.
Open Scope list_scope.
Open Scope Z_scope.

(** One block per number of phonons, most phonons first; each equation is a
    line with its index, then one indented line per term, in order. *)
Theorem C68_layout : forall T full (d : list (Z * list (equation T))), NoDup (map fst d) ->
  exists p, Permutation p d /\ falling p /\
    visualize full (Some d) = Ok (text_of (flat_map (block_lines str_int (show_term full)) p)).
Proof.
  intros T full d N. exists (sorted_desc d). split; [apply Visual_proofs.sorted_perm|]. split; [apply Visual_proofs.sorted_falling; exact N|].
  apply Visual_proofs.visualize_lines.
Qed.
Print Assumptions C68_layout.

(** Nothing is lost: equal texts mean equal blocks, and conversely. *)
Theorem C68_text : forall T full (d d' : list (Z * list (equation T))), clean d -> clean d' ->
  (visualize full (Some d) = visualize full (Some d') <-> blocks_in full d d' /\ blocks_in full d' d).
Proof. intros. apply Visual_proofs.visualize_spec; assumption. Qed.
Print Assumptions C68_text.

(** This applies to the equations of every System. *)
Theorem C68_systems : forall T (m m' : model T) ae ae' ord ord' s s', good_model m ae -> good_model m' ae' ->
  (forall k l, Permutation (ord k l) l) -> (forall k l, Permutation (ord' k l) l) ->
  prime_system ord m = Ok s -> prime_system ord' m' = Ok s' -> forall full,
  (visualize full (Some (s_eqs s)) = visualize full (Some (s_eqs s')) <-> blocks_in full (s_eqs s) (s_eqs s') /\ blocks_in full (s_eqs s') (s_eqs s)) /\
  (visualize full (Some (s_gen s)) = visualize full (Some (s_gen s')) <-> blocks_in full (s_gen s) (s_gen s') /\ blocks_in full (s_gen s') (s_gen s)).
Proof.
  intros T m m' ae ae' ord ord' s s' G G' P P' E E' full. split; apply Visual_proofs.visualize_spec.
  - exact (Visual_proofs.clean_eqs m ae G ord P s E).
  - exact (Visual_proofs.clean_eqs m' ae' G' ord' P' s' E').
  - exact (Visual_proofs.clean_gen m ae G ord P s E).
  - exact (Visual_proofs.clean_gen m' ae' G' ord' P' s' E').
Qed.
Print Assumptions C68_systems.

(** The generalized equations print alike whatever the iteration order of the
    sets; an unprimed System raises. *)
Theorem C68_order : forall T (m : model T) ord ord' s s',
  (forall k l, Permutation (ord k l) l) -> (forall k l, Permutation (ord' k l) l) ->
  prime_system ord m = Ok s -> prime_system ord' m = Ok s' -> forall full,
  visualize full (Some (s_gen s)) = visualize full (Some (s_gen s')).
Proof.
  intros T m ord ord' s s' P P' E E' full. destruct (C21_order_permutes T m ord ord' s P P' E) as [s2 [E2 [_ [H _]]]].
  rewrite E' in E2. injection E2 as <-. rewrite H. reflexivity.
Qed.
Print Assumptions C68_order.
Theorem C68_unprimed : forall T full, @visualize T full None = Err AttributeError.
Proof. reflexivity. Qed.
Print Assumptions C68_unprimed.

(** Hamiltonian.get_dict_rep: the terms by phonon type, in order. *)
Theorem C68_groups : forall T (h : hamiltonian T), NoDup (map fst (get_dict_rep h)) /\
  (forall i, In i (map fst (get_dict_rep h)) <-> exists x, In x (h_terms h) /\ ht_index x = i) /\
  forall i ts, In (i, ts) (get_dict_rep h) -> ts = filter (fun x => Nat.eqb (ht_index x) i) (h_terms h).
Proof. intros T h. exact (Visual_proofs.groups_spec (h_terms h)). Qed.
Print Assumptions C68_groups.

(** Hamiltonian.visualize: one line for every term, in order; an empty line if
    there are none. *)
Theorem C68_hamiltonian : forall T (st : hterm T -> string) (h : hamiltonian T),
  (h_terms h <> [] -> hamiltonian_visualize st h = text_of (map st (h_terms h))) /\
  (h_terms h = [] -> hamiltonian_visualize st h = text_of [""%string]).
Proof.
  intros T st h. unfold hamiltonian_visualize, print. change lf with newline. split; [|intros ->; reflexivity]. intros H.
  destruct (h_terms h) as [|x r]; [contradiction|]. clear H. revert x. induction r as [|y r IH]; intros x; [cbn [map join_lines]; rewrite Visual_proofs.text_cons; unfold text_of; cbn [map String.concat]; reflexivity|].
  specialize (IH y). cbn [map] in *. rewrite Visual_proofs.text_cons, <- IH. change (join_lines (st x :: st y :: map st r)) with (st x ++ newline ++ join_lines (st y :: map st r))%string.
  rewrite !Render_proofs.app_s_assoc. reflexivity.
Qed.
Print Assumptions C68_hamiltonian.

(** Model.visualize after successful calls: every type, in order, with its own
    limits and operators. *)
Theorem C68_model : forall T (N : numops T), num_ok N -> forall e2 st dim m fs cs, built N dim m fs cs -> (0 < m_ntypes m)%nat ->
  model_visualize e2 st m =
    Ok (text_of (head_lines str_int e2 m ++ ["Terms:"%string] ++ flat_map (type_lines str_int st m) (seq 0 (m_ntypes m)))).
Proof. intros T N K e2 st dim m fs cs B Hn. exact (Visual_proofs.built_text N e2 st K dim m fs cs B Hn). Qed.
Print Assumptions C68_model.

(** It never raises, whatever the calls. *)
Theorem C68_total : forall T (N : numops T) e2 st m, called N m -> exists s, model_visualize e2 st m = Ok s.
Proof. intros T N e2 st m C. exact (Visual_proofs.called_prints N e2 st m C). Qed.
Print Assumptions C68_total.

(** Witnesses *)
Fixpoint calls (m : model Z) (l : list (add_args Z)) : result (model Z) :=
  match l with [] => Ok m | a :: r => match model_add Znum m a with Ok (_, m') => calls m' r | Err x => Err x end end.
Lemma calls_called : forall l m m', called Znum m -> calls m l = Ok m' -> called Znum m'.
Proof.
  induction l as [|a l IH]; intros m m' C E; cbn [calls] in E; [injection E as <-; exact C|].
  destruct (model_add Znum m a) as [[logs m1]|] eqn:Ea; [|discriminate]. eapply IH; [|exact E]. eapply called_add; eassumption.
Qed.
Definition e2_ex (z : Z) : string := str_int z.
Definition st_ex (h : hterm Z) : string := ht_type h.

(** After a misspelt coupling type, reported as an error, the next type is
    printed with the limits of the failed call: *)
Theorem C68_unknown_type_refuted : exists m, called Znum m /\ nth 1 (m_pe m) 0 = 2 /\ nth 1 (m_pn m) 0 = 3 /\
  model_visualize e2_ex st_ex m = Ok (text_of (head_lines str_int e2_ex m ++
    ["Terms:"; "  Phonon type = 1 (M = 5; N = 6)"; "    Holstein"; "    Holstein"]%string)).
Proof.
  destruct (calls cold [call "Holstien" 4 5 6; call "Holstein" 4 2 3]) as [m|] eqn:E; [|vm_compute in E; discriminate].
  exists m. split; [apply (calls_called _ cold m (called_start Znum 1 1 0 None 1) E)|]. vm_compute in E. injection E as <-. split; [reflexivity|]. split; [reflexivity|]. vm_compute. reflexivity.
Qed.
Print Assumptions C68_unknown_type_refuted.

(** The same with phonon_index_override: type 2 has limits 7 and 8 *)
Theorem C68_override_refuted : exists m, called Znum m /\ nth 2 (m_pe m) 0 = 7 /\ nth 2 (m_pn m) 0 = 8 /\
  model_visualize e2_ex st_ex m = Ok (text_of (head_lines str_int e2_ex m ++
    ["Terms:"; "  Phonon type = 0 (M = 1; N = 2)"; "    Holstein"; "    Holstein"; "    Holstein"; "    Holstein";
     "  Phonon type = 2 (M = 4; N = 5)"; "    Holstein"; "    Holstein"]%string)).
Proof.
  destruct (calls cold [call "Holstein" 1 1 2; mkAdd "Holstein" 1 4 5 None None (Some 1) None (Some 0); call "Holstein" 2 7 8]) as [m|] eqn:E; [|vm_compute in E; discriminate].
  exists m. split; [apply (calls_called _ cold m (called_start Znum 1 1 0 None 1) E)|]. vm_compute in E. injection E as <-. split; [reflexivity|]. split; [reflexivity|]. vm_compute. reflexivity.
Qed.
Print Assumptions C68_override_refuted.

(** A Holstein System with one site and one phonon, printed in full; a model
    of two couplings. *)
Definition tiny : model Z := the (run cold [call "Holstein" 1 1 1]).
Definition shown (ge fu : bool) (m : model Z) : result string :=
  s <- prime_system id_ord m ;; visualize fu (Some (if ge then s_gen s else s_eqs s)).
Example C68_nonvacuous :
  shown false true tiny = Ok (text_of
    ["1"; "------------------------------------------------------------";
     "{[1](1, 1)}[0.0]<!>[0.0]"; String (Ascii.ascii_of_nat 9) " {G}[0.0][0.0][0.0]"; ""; "";
     "0"; "------------------------------------------------------------";
     "{G}[0.0]<!>[0.0]"; String (Ascii.ascii_of_nat 9) " {[1](1, 1)}[0.0]<!>[0.0]"; ""; ""]%string) /\
  shown true false tiny = Ok (text_of
    ["1"; "------------------------------------------------------------";
     "{[1](1, 1)}(!)"; String (Ascii.ascii_of_nat 9) " {G}[0.0]"; ""; "";
     "0"; "------------------------------------------------------------";
     "{G}(!)"; String (Ascii.ascii_of_nat 9) " {[1](1, 1)}[0.0]"; ""; ""]%string) /\
  (exists m fs cs, built Znum 1 m fs cs /\ m_ntypes m = 2%nat /\ model_visualize e2_ex st_ex m = Ok (text_of (head_lines str_int e2_ex m ++
    ["Terms:"; "  Phonon type = 0 (M = 2; N = 3)"; "    Holstein"; "    Holstein"; "  Phonon type = 1 (M = 4; N = 5)";
     "    EdwardsFermionBoson"; "    EdwardsFermionBoson"; "    EdwardsFermionBoson"; "    EdwardsFermionBoson"]%string))).
Proof.
  split; [vm_compute; reflexivity|]. split; [vm_compute; reflexivity|].
  history 0 [call "Holstein" 1 2 3; call "EdwardsFermionBoson" 2 4 5]. split; [vm_compute; reflexivity|]. vm_compute. reflexivity.
Qed.
