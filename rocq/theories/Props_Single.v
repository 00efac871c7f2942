(** Property theorems about SingleTerm (C89). *)
From Coq Require Import String Ascii ZArith QArith Qabs List Bool Lia.
From Verif Require Import Base Model Render Keys Logger Visual Spec_visual Props_Visual Single Spec_single.
From Verif Require Render_proofs Visual_proofs Single_proofs.
Import ListNotations.
Open Scope list_scope.
Open Scope Z_scope.

(** [logger.critical] ends the program unless the logger is disabled. *)
Lemma critical_ends : forall rank c b, snd (log (mkL (configure_loggers rank c) b) Critical) = b.
Proof.
  intros rank c [|]; [|reflexivity]. unfold log. cbn [enabled handlers]. unfold configure_loggers.
  assert (X : forall es hs, (forall h, In h es -> exists e f, h = Stream e f) -> snd (emit (es ++ Exit :: hs) Critical) = true).
  { induction es as [|h es IH]; intros hs H; [reflexivity|]. destruct (H h (or_introl eq_refl)) as [e [f ->]]. cbn [app emit]. specialize (IH hs (fun h Hh => H h (or_intror Hh))).
    destruct (reacts (Stream e f) Critical); [|exact IH]. destruct (emit (es ++ Exit :: hs) Critical). exact IH. }
  rewrite !app_assoc. change [Stream Stderr (stderr_filter c); Exit] with ([Stream Stderr (stderr_filter c)] ++ [Exit]). rewrite app_assoc, <- app_assoc. apply X.
  intros h Hh. rewrite !in_app_iff in Hh. destruct (has_debug (stdout_filter c)), (Nat.eqb rank 0); cbn [In] in Hh; repeat (destruct Hh as [Hh|Hh]; try contradiction); try (subst h; do 2 eexists; reflexivity).
Qed.

Section Fields.
Context {T : Type}.
Variable st : lstate.
Lemma array_spec : forall x : pyval T, (is_array x /\ check_array st x = Ok x) \/ (~ is_array x /\ check_array st x = critical st (Ok x)).
Proof. intros []; try (right; split; [intros H; inversion H|reflexivity]). left. split; [constructor|reflexivity]. Qed.
Lemma dag_spec : forall x : pyval T, (is_dag x /\ check_dag st x = Ok x) \/ (~ is_dag x /\ check_dag st x = critical st (Err TypeError)).
Proof.
  intros []; try (right; split; [intros H; inversion H|reflexivity]). unfold check_dag. destruct (String.eqb_spec s "+") as [-> |N]; [left; split; [constructor|reflexivity]|].
  destruct (String.eqb_spec s "-") as [-> |N']; [left; split; [constructor|reflexivity]|]. right. split; [intros H; inversion H; congruence|reflexivity].
Qed.
Lemma number_spec : forall x : pyval T, (is_real x /\ check_number st x = Ok x) \/ (~ is_real x /\ check_number st x = critical st (Err TypeError)).
Proof. intros []; try (right; split; [intros H; inversion H|reflexivity]); left; (split; [constructor|reflexivity]). Qed.
Lemma index_spec : forall x : pyval T, (is_index x /\ check_index st x = Ok x) \/ (~ is_index x /\ check_index st x = critical st (Err TypeError)).
Proof.
  intros []; try (right; split; [intros H; inversion H|reflexivity]); try (left; split; [constructor|reflexivity]).
  unfold check_index. cbn [is_int]. destruct (Z.ltb_spec z 0); [right|left]; (split; [|reflexivity]); [intros H'; inversion H'; lia|constructor; assumption].
Qed.
End Fields.

(** The constructor, with the loggers of any configuration: the attributes are as
    given if all are valid, and the program ends otherwise. *)
Theorem C89_checks : forall T rank c (ty psi phi dag g i f : pyval T), let made := single_init (mkL (configure_loggers rank c) true) ty psi phi dag g i f in
  (is_array psi /\ is_array phi /\ is_dag dag /\ is_real g /\ is_index i /\ is_real f -> made = Ok (mkSingle ty psi phi dag g i f)) /\
  (~ (is_array psi /\ is_array phi /\ is_dag dag /\ is_real g /\ is_index i /\ is_real f) -> made = Err SystemExit).
Proof.
  intros T rank c ty psi phi dag g i f. cbv zeta. unfold single_init. set (st := mkL (configure_loggers rank c) true).
  assert (C : forall A (k : result A), critical st k = Err SystemExit) by (intros A k; unfold critical, st; rewrite critical_ends; reflexivity).
  destruct (array_spec st psi) as [[V1 ->]|[V1 ->]]; [cbn [bind]|rewrite C; split; [tauto|reflexivity]].
  destruct (array_spec st phi) as [[V2 ->]|[V2 ->]]; [cbn [bind]|rewrite C; split; [tauto|reflexivity]].
  destruct (dag_spec st dag) as [[V3 ->]|[V3 ->]]; [cbn [bind]|rewrite C; split; [tauto|reflexivity]].
  destruct (number_spec st g) as [[V4 ->]|[V4 ->]]; [cbn [bind]|rewrite C; split; [tauto|reflexivity]].
  destruct (index_spec st i) as [[V5 ->]|[V5 ->]]; [cbn [bind]|rewrite C; split; [tauto|reflexivity]].
  destruct (number_spec st f) as [[V6 ->]|[V6 ->]]; [cbn [bind]|rewrite C; split; [tauto|reflexivity]]. split; [reflexivity|tauto].
Qed.
Print Assumptions C89_checks.

(** While the logger is disabled: TypeError, but psi and phi are not checked. *)
Theorem C89_silent : forall T hs (ty psi phi dag g i f : pyval T), let made := single_init (mkL hs false) ty psi phi dag g i f in
  (is_dag dag /\ is_real g /\ is_index i /\ is_real f -> made = Ok (mkSingle ty psi phi dag g i f)) /\
  (~ (is_dag dag /\ is_real g /\ is_index i /\ is_real f) -> made = Err TypeError).
Proof.
  intros T hs ty psi phi dag g i f. cbv zeta. unfold single_init. set (st := mkL hs false).
  assert (C : forall A (k : result A), critical st k = k) by reflexivity.
  assert (E : forall x : pyval T, check_array st x = Ok x) by (intros x; destruct (array_spec st x) as [[_ ->]|[_ ->]]; reflexivity). rewrite !E. cbn [bind].
  destruct (dag_spec st dag) as [[V3 ->]|[V3 ->]]; [cbn [bind]|rewrite C; split; [tauto|reflexivity]].
  destruct (number_spec st g) as [[V4 ->]|[V4 ->]]; [cbn [bind]|rewrite C; split; [tauto|reflexivity]].
  destruct (index_spec st i) as [[V5 ->]|[V5 ->]]; [cbn [bind]|rewrite C; split; [tauto|reflexivity]].
  destruct (number_spec st f) as [[V6 ->]|[V6 ->]]; [cbn [bind]|rewrite C; split; [tauto|reflexivity]]. split; [reflexivity|tauto].
Qed.
Print Assumptions C89_silent.

(** So a term can be made, inside [with disable_logger()], whose psi cannot be read:
    valid but for psi = 0 instead of an array. *)
Theorem C89_shift_refuted : forall T rank (x : T), exists o, single_init (enter rank disable_logger (imported rank)) (VStr "Holstein") (VInt 0) (VArr (ivec [0])) (VStr "+") (VFloat x) (VInt 0) (VFloat x) = Ok o /\
  copied (s_psi o) = Err AttributeError.
Proof.
  intros T rank x. destruct (C89_silent T (handlers (imported rank)) (VStr "Holstein") (VInt 0) (VArr (ivec [0])) (VStr "+") (VFloat x) (VInt 0) (VFloat x)) as [H _].
  eexists. split; [apply H; repeat constructor; lia|reflexivity].
Qed.
Print Assumptions C89_shift_refuted.

(** The terms of the models (Model.v) pass, whatever the state of the logger. *)
Theorem C89_terms : forall T st (h : hterm T), let o := as_single h in single_init st (s_type o) (s_psi o) (s_phi o) (s_dag o) (s_coupling o) (s_index o) (s_freq o) = Ok o.
Proof.
  intros T st h. cbn [as_single s_type s_psi s_phi s_dag s_coupling s_index s_freq]. unfold single_init, check_array, check_number, check_index. cbn [is_ndarray bind is_number is_int].
  assert (E : check_dag st (VStr (dag_text (ht_dag h)) : pyval T) = Ok (VStr (dag_text (ht_dag h)))) by (destruct (ht_dag h); reflexivity). rewrite E. cbn [bind].
  destruct (Z.ltb_spec (Z.of_nat (ht_index h)) 0); [lia|]. reflexivity.
Qed.
Print Assumptions C89_terms.

(** The text of a term: what it tells apart. *)
Theorem C89_text : forall h h', plain_name (ht_type h) -> plain_name (ht_type h') -> one_site (ht_psi h) -> one_site (ht_psi h') -> one_site (ht_phi h) -> one_site (ht_phi h') ->
  (single_str h = single_str h' -> near_term h h') /\
  (ht_type h = ht_type h' -> ht_psi h = ht_psi h' -> ht_phi h = ht_phi h' -> ht_dag h = ht_dag h' -> ht_index h = ht_index h' ->
   (ht_coupling h == ht_coupling h')%Q -> (ht_freq h == ht_freq h')%Q -> single_str h = single_str h').
Proof.
  intros h h' N N' A A' B B'. split.
  - intros E. destruct (Single_proofs.str_inj h h' N N' A A' B B' E) as [E1 [E2 [E3 [E4 [E5 [E6 E7]]]]]]. repeat split; try assumption; apply Single_proofs.fmt02_close; assumption.
  - intros E1 E2 E3 E4 E5 E6 E7. unfold single_str. rewrite E1, E2, E3, E4, E5, (Single_proofs.fmt02_compat _ _ E6), (Single_proofs.fmt02_compat _ _ E7). reflexivity.
Qed.
Print Assumptions C89_text.

(** Hamiltonians that print alike have the same operators, in the same order. *)
Definition printable (h : hamiltonian Q) : Prop := Forall (fun t => plain_name (ht_type t) /\ one_site (ht_psi t) /\ one_site (ht_phi t)) (h_terms h).
Theorem C89_hamiltonian : forall h h', printable h -> printable h' -> hamiltonian_visualize single_str h = hamiltonian_visualize single_str h' -> Forall2 near_term (h_terms h) (h_terms h').
Proof.
  intros h h' P P' E. destruct (C68_hamiltonian Q single_str h) as [F G]. destruct (C68_hamiltonian Q single_str h') as [F' G'].
  assert (L : forall x, printable x -> Forall (fun s => Render_proofs.allc Visual_proofs.noteol s = true) (map single_str (h_terms x))).
  { intros x Px. apply Forall_map. apply (Forall_impl _ (fun t Ht => Single_proofs.str_line t (proj1 Ht)) Px). }
  assert (M : map single_str (h_terms h) = map single_str (h_terms h')).
  { destruct (h_terms h) as [|t l] eqn:H1, (h_terms h') as [|t' l'] eqn:H2; [reflexivity| | |].
    - rewrite G, F' in E by (auto; discriminate). apply Visual_proofs.text_inj in E; [|repeat constructor|rewrite <- H2; apply L; exact P'].
      injection E as E _. exfalso. symmetry in E. exact (Single_proofs.str_nonempty _ E).
    - rewrite F, G' in E by (auto; discriminate). apply Visual_proofs.text_inj in E; [|rewrite <- H1; apply L; exact P|repeat constructor].
      injection E as E _. exfalso. exact (Single_proofs.str_nonempty _ E).
    - rewrite F, F' in E by discriminate. apply Visual_proofs.text_inj in E; [exact E|rewrite <- H1; apply L; exact P|rewrite <- H2; apply L; exact P']. }
  clear E F G F' G' L. unfold printable in *. revert P' M. generalize (h_terms h'). clear h'. induction P as [|t l [N [A B]] P IH]; intros [|t' l'] P' M; try discriminate M; [constructor|].
  cbn [map] in M. injection M as M1 M2. inversion P' as [|? ? [N' [A' B']] P'' ]; subst. constructor; [apply (C89_text t t' N N' A A' B B'); exact M1|apply IH; assumption].
Qed.
Print Assumptions C89_hamiltonian.

(** A term of the Holstein model with g = sqrt 2, rounded; and one that cannot be made. *)
Example C89_nonvacuous : let h := mkHterm "Holstein" (ivec [0]) (ivec [0]) Plus (-141421 # 100000)%Q 0%nat 1%Q in
  single_str h = "Holstein: -1.41 x ([0] [0] +) | 0 (1.00)"%string /\ plain_name (ht_type h) /\ one_site (ht_psi h) /\
  single_init (imported 0) (VStr "Holstein") (VArr (ivec [0])) (VArr (ivec [0])) (VStr "+") (VInt64 1) (VInt 0) (VFloat 1%Q) = Err SystemExit /\
  single_init (imported 0) (VStr "Holstein") (VArr (ivec [0])) (VArr (ivec [0])) (VStr "+") (VFloat 1%Q) (VInt (-1)) (VFloat 1%Q) = Err SystemExit.
Proof.
  cbv zeta. split; [vm_compute; reflexivity|]. split.
  - intros n. cbn [ht_type]. do 9 (destruct n as [|n]; [split; discriminate|]). destruct n; split; discriminate.
  - split; [eexists; reflexivity|]. split; vm_compute; reflexivity.
Qed.
