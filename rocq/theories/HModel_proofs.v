(** Lemmas on building models. *)
From Coq Require Import String ZArith List Bool Lia Permutation.
From Verif Require Import Base NdArray Config Spec Model Space Spec_space Term Equation Spec_engine HModel Spec_model NdArray_proofs.
Import ListNotations.
Open Scope list_scope.
Open Scope Z_scope.

Lemma map_repeat0 : forall n, map (Z.mul 2) (repeat 0 n) = repeat 0 n.
Proof. induction n; simpl; [reflexivity|rewrite IHn; reflexivity]. Qed.

Section P.
Context {T : Type}.
Variable N : numops T.

Lemma get_terms_ops : forall dim c g idx freq ts, get_terms N dim c g idx freq = Some ts -> operators N dim c g idx freq ts.
Proof.
  intros dim c g idx freq ts H. unfold get_terms in H.
  destruct (String.eqb_spec c "Holstein") as [->|N1].
  { injection H as <-. split.
    - repeat constructor; simpl; intuition; discriminate.
    - intros h. split.
      + intros [<-|[<-|[]]]; do 4 eexists; (split; [apply op_holstein|]); cbn [String.eqb Ascii.eqb Bool.eqb signed Z.ltb Z.compare];
        unfold ivec; rewrite map_repeat0; reflexivity.
      + intros [psi [phi [d [s [O ->]]]]]. inversion O; subst. unfold ivec. rewrite map_repeat0. cbn. destruct d; auto. }
  destruct (String.eqb_spec c "EdwardsFermionBoson") as [->|N2].
  { injection H as <-. split.
    - repeat constructor; simpl; intuition; discriminate.
    - intros h. split.
      + intros [<-|[<-|[<-|[<-|[]]]]]; do 4 eexists.
        * split; [apply (op_edwards_create dim 1); auto|reflexivity].
        * split; [apply (op_edwards_create dim (-1)); auto|reflexivity].
        * split; [apply (op_edwards_destroy dim 1); auto|reflexivity].
        * split; [apply (op_edwards_destroy dim (-1)); auto|reflexivity].
      + intros [psi [phi [d [s [O ->]]]]]. inversion O; subst; match goal with H : _ = 1 \/ _ |- _ => destruct H; subst end; simpl; auto. }
  destruct (String.eqb_spec c "BondPeierls") as [->|N3].
  { injection H as <-. split.
    - repeat constructor; simpl; intuition; discriminate.
    - intros h. split.
      + intros [<-|[<-|[<-|[<-|[]]]]]; do 4 eexists.
        * split; [apply (op_bond dim 1 Plus); auto|reflexivity].
        * split; [apply (op_bond dim 1 Minus); auto|reflexivity].
        * split; [apply (op_bond dim (-1) Plus); auto|reflexivity].
        * split; [apply (op_bond dim (-1) Minus); auto|reflexivity].
      + intros [psi [phi [d [s [O ->]]]]]. inversion O; subst; match goal with H : _ = 1 \/ _ |- _ => destruct H; subst end; destruct d; simpl; auto. }
  destruct (String.eqb_spec c "Peierls") as [->|N4]; [|discriminate].
  injection H as <-. split.
  - repeat constructor; simpl; intuition; discriminate.
  - intros h. split.
    + intros [<-|[<-|[<-|[<-|[<-|[<-|[<-|[<-|[]]]]]]]]]; do 4 eexists.
      * split; [apply (op_peierls_here dim 1 Plus); auto|reflexivity].
      * split; [apply (op_peierls_here dim 1 Minus); auto|reflexivity].
      * split; [apply (op_peierls_there dim 1 Plus); auto|reflexivity].
      * split; [apply (op_peierls_there dim 1 Minus); auto|reflexivity].
      * split; [apply (op_peierls_there dim (-1) Plus); auto|reflexivity].
      * split; [apply (op_peierls_there dim (-1) Minus); auto|reflexivity].
      * split; [apply (op_peierls_here dim (-1) Plus); auto|reflexivity].
      * split; [apply (op_peierls_here dim (-1) Minus); auto|reflexivity].
    + intros [psi [phi [d [s [O ->]]]]]. inversion O; subst; match goal with H : _ = 1 \/ _ |- _ => destruct H; subst end; destruct d; simpl; auto 12.
Qed.

Lemma get_terms_supported : forall dim c g idx freq, supported c -> exists ts, get_terms N dim c g idx freq = Some ts.
Proof. intros dim c g idx freq H. unfold get_terms. destruct H as [->|[->|[->| ->]]]; cbn; eauto. Qed.

Lemma supported_dec : forall c, {supported c} + {~ supported c}.
Proof.
  intros c. unfold supported. destruct (string_dec c "Holstein"); [left; auto|]. destruct (string_dec c "EdwardsFermionBoson"); [left; auto|].
  destruct (string_dec c "BondPeierls"); [left; auto|]. destruct (string_dec c "Peierls"); [left; auto|]. right. intuition.
Qed.

Lemma get_terms_none : forall dim c g idx freq, ~ supported c -> get_terms N dim c g idx freq = None.
Proof.
  intros dim c g idx freq H. unfold supported in H. unfold get_terms.
  destruct (String.eqb_spec c "Holstein"); [tauto|]. destruct (String.eqb_spec c "EdwardsFermionBoson"); [tauto|].
  destruct (String.eqb_spec c "BondPeierls"); [tauto|]. destruct (String.eqb_spec c "Peierls"); [tauto|reflexivity].
Qed.

Lemma with_freq_ok : forall fs f, with_freq N fs f (if existsb (n_eqb N f) fs then fs else fs ++ [f]).
Proof.
  intros fs f. unfold with_freq. destruct (existsb (n_eqb N f) fs) eqn:E.
  - left. split; [|reflexivity]. apply existsb_exists in E. exact E.
  - right. split; [|reflexivity]. intros x Hx. destruct (n_eqb N f x) eqn:E2; [|reflexivity].
    rewrite <- E. symmetry. apply existsb_exists. exists x. auto.
Qed.

(** [ham_add] with a supported coupling and a coupling value. *)
Lemma ham_add_ok : forall h c idx freq cs dcs mult g, supported c -> 0 <= idx ->
  (cs = Some g /\ dcs = None) \/ (cs = None /\ exists lam, dcs = Some lam /\ model_coupling_map N c (h_hop h) freq lam = Ok g) ->
  exists ts, operators N (h_dim h) c (n_mul N g mult) (Z.to_nat idx) freq ts /\
    ham_add N h c idx freq cs dcs mult =
      Ok ([LDebug], mkHam (h_terms h ++ ts) (if existsb (n_eqb N freq) (h_freqs h) then h_freqs h else h_freqs h ++ [freq]) (h_dim h) (h_hop h)).
Proof.
  intros h c idx freq cs dcs mult g S I G. destruct (get_terms_supported (h_dim h) c (n_mul N g mult) (Z.to_nat idx) freq S) as [ts Et].
  exists ts. split; [apply get_terms_ops; exact Et|]. unfold ham_add.
  replace (match cs with Some g0 => match dcs with Some _ => Err ValueError | None => Ok g0 end
    | None => match dcs with Some lam => model_coupling_map N c (h_hop h) freq lam | None => Err ValueError end end) with (@Ok T g).
  - rewrite Et. unfold guard. rewrite (proj2 (Z.leb_le 0 idx) I). reflexivity.
  - destruct G as [[-> ->]|[-> [lam [-> ->]]]]; reflexivity.
Qed.

Lemma map_abs : (forall x, n_abs N (n_opp N x) = n_abs N x) -> forall c t O lam, model_coupling_map N c t (n_opp N O) lam = model_coupling_map N c t O lam.
Proof. intros A c t O lam. unfold model_coupling_map. rewrite !A. reflexivity. Qed.

Lemma negb_xor_none : forall (a : add_args T), negb (xorb (is_none (a_cs a)) (is_none (a_dcs a))) = false <->
  (a_cs a = None /\ a_dcs a <> None) \/ (a_cs a <> None /\ a_dcs a = None).
Proof. intros a. destruct (a_cs a), (a_dcs a); simpl; (split; [intros H; try discriminate H; first [left; split; congruence | right; split; congruence] | intros [[? ?]|[? ?]]; congruence]). Qed.

(** Rejected calls. *)
Lemma add_rejects : forall m a, ~ acceptable N m a -> model_add N m a = Ok ([LError], m).
Proof.
  intros m a H. unfold model_add. set (hot := n_ltb N (n_0 N) (m_temp m)) in *.
  destruct (hot && (is_none (a_Mtfd a) || is_none (a_Ntfd a))) eqn:E1; [reflexivity|].
  destruct ((a_N a <? 1) || (a_M a <? 1)) eqn:E2; [reflexivity|].
  destruct (lt1 (a_Mtfd a) || lt1 (a_Ntfd a)) eqn:E3; [reflexivity|].
  destruct (negb (xorb (is_none (a_cs a)) (is_none (a_dcs a)))) eqn:E4; [reflexivity|].
  destruct (match a_override a with Some o => hot && Z.odd o | None => false end) eqn:E5; [reflexivity|].
  exfalso. apply H. constructor.
  - intros Hh. fold hot in Hh. rewrite Hh in E1. destruct (a_Mtfd a), (a_Ntfd a); simpl in E1; try discriminate. split; discriminate.
  - lia.
  - lia.
  - intros x Hx. rewrite Hx in E3. unfold lt1 in E3. lia.
  - intros x Hx. rewrite Hx in E3. unfold lt1 in E3. destruct (a_Mtfd a); lia.
  - apply negb_xor_none. exact E4.
  - intros o Ho Hh. fold hot in Hh. rewrite Ho, Hh in E5. cbn [andb] in E5. apply Z.even_spec. rewrite <- Z.negb_odd, E5. reflexivity.
Qed.

Lemma add_passes : forall m a, acceptable N m a -> forall A (x y : A),
  (let hot := n_ltb N (n_0 N) (m_temp m) in
  if hot && (is_none (a_Mtfd a) || is_none (a_Ntfd a)) then x
  else if (a_N a <? 1) || (a_M a <? 1) then x
  else if lt1 (a_Mtfd a) || lt1 (a_Ntfd a) then x
  else if negb (xorb (is_none (a_cs a)) (is_none (a_dcs a))) then x
  else if match a_override a with Some o => hot && Z.odd o | None => false end then x else y) = y.
Proof.
  intros m a A B x y. cbv zeta. set (hot := n_ltb N (n_0 N) (m_temp m)).
  assert (hot && (is_none (a_Mtfd a) || is_none (a_Ntfd a)) = false) as ->.
  { destruct hot eqn:E; [|reflexivity]. destruct (ac_tfd _ _ _ A E) as [H1 H2]. destruct (a_Mtfd a), (a_Ntfd a); try congruence. reflexivity. }
  assert ((a_N a <? 1) || (a_M a <? 1) = false) as -> by (pose proof (ac_N _ _ _ A); pose proof (ac_M _ _ _ A); lia).
  assert (lt1 (a_Mtfd a) || lt1 (a_Ntfd a) = false) as ->.
  { pose proof (ac_Mtfd _ _ _ A) as H1. pose proof (ac_Ntfd _ _ _ A) as H2. unfold lt1.
    destruct (a_Mtfd a) as [v|]; [specialize (H1 v eq_refl)|clear H1]; (destruct (a_Ntfd a) as [w|]; [specialize (H2 w eq_refl)|clear H2]); lia. }
  rewrite (proj2 (negb_xor_none a) (ac_one _ _ _ A)).
  assert ((match a_override a with Some o => hot && Z.odd o | None => false end) = false) as ->; [|reflexivity].
  destruct (a_override a) as [o|] eqn:E; [|reflexivity]. destruct hot eqn:Eh; [|reflexivity]. cbn [andb].
  pose proof (ac_even _ _ _ A o E Eh) as H. apply Z.even_spec in H. rewrite <- Z.negb_even, H. reflexivity.
Qed.

(** Accepted calls. *)
Lemma add_accepts : num_ok N -> forall m a g, acceptable N m a -> supported (a_type a) -> coupling_value N m a g ->
  (forall o, a_override a = Some o -> 0 <= o) ->
  exists logs m', model_add N m a = Ok (logs, m') /\ ~ In LError logs /\ added N m a g m'.
Proof.
  intros K m a g A Sp G O. unfold model_add. cbv zeta. rewrite (add_passes m a A).
  set (hot := n_ltb N (n_0 N) (m_temp m)). set (warn := if n_eqb N (m_temp m) (n_0 N) && (negb (is_none (a_Mtfd a)) || negb (is_none (a_Ntfd a))) then [LWarning] else []).
  assert (W : ~ In LError warn) by (unfold warn; destruct (n_eqb N (m_temp m) (n_0 N) && _); simpl; intuition; discriminate).
  destruct (tfd_prefactors N (m_temp m) (a_freq a)) as [V Vt] eqn:EV.
  set (idx := match a_override a with Some o => o | None => Z.of_nat (m_ntypes m) end).
  assert (I0 : 0 <= idx) by (unfold idx; destruct (a_override a) as [o|]; [apply O; reflexivity|lia]).
  assert (EI : Z.to_nat idx = match a_override a with Some o => Z.to_nat o | None => m_ntypes m end) by (unfold idx; destruct (a_override a); [reflexivity|lia]).
  assert (GV : (a_cs a = Some g /\ a_dcs a = None) \/ (a_cs a = None /\ exists lam, a_dcs a = Some lam /\ model_coupling_map N (a_type a) (h_hop (m_ham m)) (a_freq a) lam = Ok g)).
  { destruct G as [G|G]; [left; split; [exact G|]|right; exact G]. destruct (ac_one _ _ _ A) as [[H _]|[_ H]]; [congruence|exact H]. }
  destruct (ham_add_ok (m_ham m) (a_type a) idx (a_freq a) (a_cs a) (a_dcs a) V g Sp I0 GV) as [ts [Ots Ets]]. rewrite Ets. cbn [bind].
  destruct hot eqn:Eh.
  - destruct (ac_tfd _ _ _ A Eh) as [H1 H2]. destruct (a_Mtfd a) as [Mt|] eqn:EM; [|congruence]. destruct (a_Ntfd a) as [Nt|] eqn:EN; [|congruence].
    set (h1 := mkHam _ _ _ _). destruct (ham_add_ok h1 (a_type a) (idx + 1) (n_opp N (a_freq a)) (a_cs a) (a_dcs a) Vt g Sp) as [ts' [Ots' Ets']]; [lia| |].
    { cbn [h1 h_hop]. destruct GV as [GV|[G1 [lam [G2 G3]]]]; [left; exact GV|right; split; [exact G1|]]. exists lam. split; [exact G2|]. rewrite map_abs by exact (no_abs N K). exact G3. }
    rewrite Ets'. cbn [bind]. eexists. eexists. split; [reflexivity|]. split.
    + rewrite !in_app_iff. simpl. intuition; discriminate.
    + unfold added. rewrite EV. cbn [fst snd m_lattice m_temp m_mps m_aext m_ham h_dim h_hop m_pe m_pn m_ntypes h_terms h_freqs h1].
      do 6 (split; [reflexivity|]). rewrite <- EI. exists ts. split; [exact Ots|]. fold hot. rewrite Eh.
      exists Mt, Nt, ts', (h_freqs h1). split; [exact EM|]. split; [exact EN|]. split; [replace (S (Z.to_nat idx)) with (Z.to_nat (idx + 1)) by lia; exact Ots'|].
      cbn [h1 h_freqs]. rewrite <- !app_assoc. do 4 (split; [reflexivity|]). split; apply with_freq_ok.
  - eexists. eexists. split; [reflexivity|]. split.
    + rewrite !in_app_iff. simpl. intuition; discriminate.
    + unfold added. rewrite EV. cbn [fst snd m_lattice m_temp m_mps m_aext m_ham h_dim h_hop m_pe m_pn m_ntypes h_terms h_freqs].
      do 6 (split; [reflexivity|]). rewrite <- EI. exists ts. split; [exact Ots|]. fold hot. rewrite Eh. do 4 (split; [reflexivity|]). apply with_freq_ok.
Qed.

(** No coupling value or a negative index: an exception, hence no model. *)
Lemma add_raises : num_ok N -> forall m a, acceptable N m a -> supported (a_type a) ->
  ((forall g, ~ coupling_value N m a g) \/ (exists o, a_override a = Some o /\ o < 0)) -> exists x, model_add N m a = Err x.
Proof.
  intros K m a A Sp H. unfold model_add. cbv zeta. rewrite (add_passes m a A).
  destruct (tfd_prefactors N (m_temp m) (a_freq a)) as [V Vt].
  set (idx := match a_override a with Some o => o | None => Z.of_nat (m_ntypes m) end).
  assert (X : exists x, ham_add N (m_ham m) (a_type a) idx (a_freq a) (a_cs a) (a_dcs a) V = Err x); [|destruct X as [x ->]; exists x; reflexivity].
  unfold ham_add.
  destruct (match a_cs a with Some g => _ | None => _ end) as [g|x] eqn:E0.
  - destruct H as [H|[o [Eo Ho]]].
    + exfalso. apply (H g). destruct (a_cs a) as [g'|] eqn:Ec; destruct (a_dcs a) as [lam|] eqn:Ed; try discriminate.
      * left. congruence.
      * right. split; [exact Ec|]. exists lam. auto.
    + destruct (get_terms_supported (h_dim (m_ham m)) (a_type a) (n_mul N g V) (Z.to_nat idx) (a_freq a) Sp) as [ts ->].
      unfold guard, idx. rewrite Eo. destruct (Z.leb_spec 0 o); [lia|]. eexists; reflexivity.
  - assert (x = ValueError) as ->; [|eexists; reflexivity].
    destruct (a_cs a) as [g'|] eqn:Ec; destruct (a_dcs a) as [lam|] eqn:Ed; try congruence.
    revert E0. unfold model_coupling_map. destruct Sp as [->|[->|[->| ->]]]; cbn; intros E0; try discriminate; apply (no_sqrt N K) in E0; exact E0.
Qed.

(** An unknown coupling type. *)
Lemma ham_add_unknown : forall h c idx freq cs dcs mult, ~ supported c ->
  (cs = None /\ dcs <> None) \/ (cs <> None /\ dcs = None) -> ham_add N h c idx freq cs dcs mult = Ok ([LError; LDebug], h).
Proof.
  intros h c idx freq cs dcs mult U X. unfold ham_add.
  assert (M : forall t O lam, model_coupling_map N c t O lam = Err RuntimeError).
  { intros t O lam. unfold supported in U. unfold model_coupling_map.
    destruct (String.eqb_spec c "Holstein"); [tauto|]. destruct (String.eqb_spec c "EdwardsFermionBoson"); [tauto|].
    destruct (String.eqb_spec c "Peierls"); [tauto|]. destruct (String.eqb_spec c "BondPeierls"); [tauto|reflexivity]. }
  destruct cs as [g|], dcs as [lam|]; try (destruct X as [[? ?]|[? ?]]; congruence).
  - rewrite get_terms_none by exact U. reflexivity.
  - rewrite M. reflexivity.
Qed.

Lemma add_unknown : forall m a, acceptable N m a -> ~ supported (a_type a) ->
  exists logs m', model_add N m a = Ok (logs, m') /\ In LError logs /\ m_ham m' = m_ham m /\
    exists M Nn, m_pe m' = m_pe m ++ a_M a :: M /\ m_pn m' = m_pn m ++ a_N a :: Nn /\ (m_ntypes m < m_ntypes m')%nat.
Proof.
  intros m a A U. unfold model_add. cbv zeta. rewrite (add_passes m a A).
  destruct (tfd_prefactors N (m_temp m) (a_freq a)) as [V Vt].
  rewrite ham_add_unknown by (auto; apply (ac_one _ _ _ A)). cbn [bind].
  destruct (n_ltb N (n_0 N) (m_temp m)) eqn:Eh.
  - destruct (ac_tfd _ _ _ A Eh) as [H1 H2]. destruct (a_Mtfd a) as [Mt|] eqn:EM; [|congruence]. destruct (a_Ntfd a) as [Nt|] eqn:EN; [|congruence].
    rewrite ham_add_unknown by (auto; apply (ac_one _ _ _ A)). cbn [bind]. eexists. eexists. split; [reflexivity|].
    split; [apply in_or_app; right; left; reflexivity|]. split; [reflexivity|]. exists [Mt], [Nt]. cbn [m_pe m_pn m_ntypes]. rewrite <- !app_assoc. cbn [app].
    do 2 (split; [reflexivity|]). lia.
  - eexists. eexists. split; [reflexivity|].
    split; [apply in_or_app; right; left; reflexivity|]. split; [reflexivity|]. exists [], []. cbn [m_pe m_pn m_ntypes].
    do 2 (split; [reflexivity|]). lia.
Qed.

Lemma acceptable_dec : forall m a, acceptable N m a \/ ~ acceptable N m a.
Proof.
  intros m a.
  destruct (let hot := n_ltb N (n_0 N) (m_temp m) in
    if hot && (is_none (a_Mtfd a) || is_none (a_Ntfd a)) then true
    else if (a_N a <? 1) || (a_M a <? 1) then true
    else if lt1 (a_Mtfd a) || lt1 (a_Ntfd a) then true
    else if negb (xorb (is_none (a_cs a)) (is_none (a_dcs a))) then true
    else if match a_override a with Some o => hot && Z.odd o | None => false end then true else false) eqn:E.
  - right. intros A. pose proof (add_passes m a A bool true false) as P. congruence.
  - left. cbv zeta in E. set (hot := n_ltb N (n_0 N) (m_temp m)) in *.
    destruct (hot && (is_none (a_Mtfd a) || is_none (a_Ntfd a))) eqn:E1; [discriminate|].
    destruct ((a_N a <? 1) || (a_M a <? 1)) eqn:E2; [discriminate|].
    destruct (lt1 (a_Mtfd a) || lt1 (a_Ntfd a)) eqn:E3; [discriminate|].
    destruct (negb (xorb (is_none (a_cs a)) (is_none (a_dcs a)))) eqn:E4; [discriminate|].
    destruct (match a_override a with Some o => hot && Z.odd o | None => false end) eqn:E5; [discriminate|].
    constructor.
    + intros Hh. fold hot in Hh. rewrite Hh in E1. destruct (a_Mtfd a), (a_Ntfd a); simpl in E1; try discriminate. split; discriminate.
    + lia.
    + lia.
    + intros x Hx. rewrite Hx in E3. unfold lt1 in E3. lia.
    + intros x Hx. rewrite Hx in E3. unfold lt1 in E3. destruct (a_Mtfd a); lia.
    + apply negb_xor_none. exact E4.
    + intros o Ho Hh. fold hot in Hh. rewrite Ho, Hh in E5. cbn [andb] in E5. apply Z.even_spec. rewrite <- Z.negb_odd, E5. reflexivity.
Qed.

Lemma coupling_value_dec : forall m a, acceptable N m a -> (exists g, coupling_value N m a g) \/ (forall g, ~ coupling_value N m a g).
Proof.
  intros m a A. destruct (ac_one _ _ _ A) as [[H1 H2]|[H1 H2]].
  - destruct (a_dcs a) as [lam|] eqn:E; [|congruence].
    destruct (model_coupling_map N (a_type a) (h_hop (m_ham m)) (a_freq a) lam) as [g|x] eqn:Em.
    + left. exists g. right. split; [exact H1|]. exists lam. auto.
    + right. intros g [G|[_ [l [G1 G2]]]]; congruence.
  - destruct (a_cs a) as [g|] eqn:E; [|congruence]. left. exists g. left. exact E.
Qed.

(** Every outcome of a call with a supported coupling type. *)
Lemma add_outcome : num_ok N -> forall m a logs m', supported (a_type a) -> model_add N m a = Ok (logs, m') ->
  (In LError logs /\ m' = m /\ ~ acceptable N m a) \/
  (~ In LError logs /\ acceptable N m a /\ exists g, coupling_value N m a g /\ added N m a g m').
Proof.
  intros K m a logs m' Sp E. destruct (acceptable_dec m a) as [A|A].
  - right. destruct (coupling_value_dec m a A) as [[g G]|G].
    + assert (O : forall o, a_override a = Some o -> 0 <= o).
      { intros o Ho. destruct (Z.leb_spec 0 o); [assumption|]. destruct (add_raises K m a A Sp) as [x X]; [right; exists o; auto|congruence]. }
      destruct (add_accepts K m a g A Sp G O) as [l2 [m2 [E2 [L2 D]]]]. rewrite E in E2.
      assert (logs = l2 /\ m' = m2) as [-> ->] by (split; congruence). split; [exact L2|]. split; [exact A|]. exists g. auto.
    + exfalso. destruct (add_raises K m a A Sp (or_introl G)) as [x X]. congruence.
  - left. rewrite (add_rejects m a A) in E. assert (logs = [LError] /\ m' = m) as [-> ->] by (split; congruence).
    split; [left; reflexivity|]. auto.
Qed.

Lemma add_outcome_any : num_ok N -> forall m a logs m', model_add N m a = Ok (logs, m') -> ~ In LError logs ->
  supported (a_type a) /\ acceptable N m a /\ exists g, coupling_value N m a g /\ added N m a g m'.
Proof.
  intros K m a logs m' E L. destruct (supported_dec (a_type a)) as [Sp|U].
  - split; [exact Sp|]. destruct (add_outcome K m a logs m' Sp E) as [[L' _]|[_ H]]; [contradiction|exact H].
  - exfalso. destruct (acceptable_dec m a) as [A|A].
    + destruct (add_unknown m a A U) as [l2 [m2 [E2 [L2 _]]]]. rewrite E in E2. assert (logs = l2) by congruence. subst. contradiction.
    + rewrite (add_rejects m a A) in E. assert (logs = [LError]) by congruence. subst. apply L. left. reflexivity.
Qed.

Lemma distinct_app : forall fs f, distinct N (fs ++ [f]) -> distinct N fs /\ forall x, In x fs -> n_eqb N f x = false.
Proof.
  unfold distinct. induction fs as [|a fs IH]; intros f H; cbn in H.
  - split; [constructor|intros x []].
  - inversion H as [|? ? H1 H2]; subst. apply IH in H2. destruct H2 as [H2 H3]. apply Forall_app in H1. destruct H1 as [H1 H4].
    split; [constructor; assumption|]. intros x [<-|Hx]; [inversion H4; assumption|apply H3; exact Hx].
Qed.

(** What holds of every model built by calls. *)
Definition op_of (dim : nat) (fs : list T) (cs : list string) (h : hterm T) : Prop :=
  exists g psi phi d s, In (ht_type h) cs /\ supported (ht_type h) /\ op_spec dim (ht_type h) psi phi d s /\
    h = mkHterm (ht_type h) (mkVec false psi) (mkVec (String.eqb (ht_type h) "BondPeierls") phi) d (signed N s g) (ht_index h) (ht_freq h) /\
    nth_error fs (ht_index h) = Some (ht_freq h).

(** all operators of one call *)
Definition whole (dim : nat) (ts : list (hterm T)) (h : hterm T) : Prop :=
  exists g bef aft us, ts = bef ++ us ++ aft /\ operators N dim (ht_type h) g (ht_index h) (ht_freq h) us /\ In h us.

Record inv (dim : nat) (m : model T) (fs : list T) (cs : list string) : Prop := {
  i_dim : h_dim (m_ham m) = dim;
  i_pe : List.length (m_pe m) = List.length fs;
  i_pn : List.length (m_pn m) = List.length fs;
  i_nt : m_ntypes m = List.length fs;
  i_pe1 : Forall (Z.le 1) (m_pe m);
  i_pn1 : Forall (Z.le 1) (m_pn m);
  i_terms : forall h, In h (h_terms (m_ham m)) -> op_of dim fs cs h;
  i_whole : forall h, In h (h_terms (m_ham m)) -> whole dim (h_terms (m_ham m)) h;
  i_every : forall t, (t < List.length fs)%nat -> forall d, exists h, In h (h_terms (m_ham m)) /\ ht_index h = t /\ ht_dag h = d;
  i_nodup : NoDup (h_terms (m_ham m));
  i_cs : fs = [] -> cs = [];
  i_freqs : distinct N fs -> h_freqs (m_ham m) = fs }.

Lemma operators_dags : forall dim c g idx freq ts d, supported c -> operators N dim c g idx freq ts ->
  exists h, In h ts /\ ht_index h = idx /\ ht_dag h = d.
Proof.
  intros dim c g idx freq ts d Sp [_ H].
  assert (E : exists psi phi s, op_spec dim c psi phi d s).
  { destruct Sp as [->|[->|[->| ->]]].
    - do 3 eexists. apply op_holstein.
    - destruct d; do 3 eexists; [apply (op_edwards_create dim 1)|apply (op_edwards_destroy dim 1)]; auto.
    - do 3 eexists. apply (op_bond dim 1). auto.
    - do 3 eexists. apply (op_peierls_here dim 1). auto. }
  destruct E as [psi [phi [s E]]]. eexists. split; [apply H; exists psi, phi, d, s; split; [exact E|reflexivity]|]. split; reflexivity.
Qed.

Lemma operators_of : forall dim c g idx freq ts fs cs, supported c -> In c cs -> nth_error fs idx = Some freq -> operators N dim c g idx freq ts ->
  forall h, In h ts -> op_of dim fs cs h /\ ht_type h = c /\ ht_index h = idx /\ ht_freq h = freq.
Proof.
  intros dim c g idx freq ts fs cs Sp Hc Hf [_ H] h Hh. apply H in Hh. destruct Hh as [psi [phi [d [s [O ->]]]]].
  split; [|repeat split]. exists g, psi, phi, d, s. cbn [ht_type ht_index ht_freq]. auto.
Qed.

(** Appending one block of operators for a new type. *)
Lemma inv_block : forall dim m m' fs cs c g f ts M Nn, inv dim m fs cs -> supported c -> 1 <= M -> 1 <= Nn ->
  operators N dim c g (List.length fs) f ts -> h_dim (m_ham m') = h_dim (m_ham m) ->
  m_pe m' = m_pe m ++ [M] -> m_pn m' = m_pn m ++ [Nn] -> m_ntypes m' = S (m_ntypes m) -> h_terms (m_ham m') = h_terms (m_ham m) ++ ts ->
  with_freq N (h_freqs (m_ham m)) f (h_freqs (m_ham m')) -> inv dim m' (fs ++ [f]) (cs ++ [c]).
Proof.
  intros dim m m' fs cs c g f ts M Nn I Sp HM HN O Ed Ee En Et Eh W.
  assert (Ls : forall x, nth_error (fs ++ [f]) (List.length fs) = Some x <-> f = x).
  { intros x. rewrite nth_error_app2 by lia. rewrite Nat.sub_diag. cbn. split; congruence. }
  pose proof (operators_of dim c g (List.length fs) f ts (fs ++ [f]) (cs ++ [c]) Sp (in_or_app cs [c] c (or_intror (or_introl eq_refl))) (proj2 (Ls f) eq_refl) O) as New.
  assert (Old : forall h, In h (h_terms (m_ham m)) -> (ht_index h < List.length fs)%nat).
  { intros h Hh. destruct (i_terms _ _ _ _ I h Hh) as [g' [psi [phi [d [s [_ [_ [_ [_ E]]]]]]]]]. apply nth_error_Some. congruence. }
  constructor.
  - rewrite Ed. apply (i_dim _ _ _ _ I).
  - rewrite Ee, !app_length, (i_pe _ _ _ _ I). reflexivity.
  - rewrite En, !app_length, (i_pn _ _ _ _ I). reflexivity.
  - rewrite Et, app_length, (i_nt _ _ _ _ I). cbn. lia.
  - rewrite Ee. apply Forall_app. split; [apply (i_pe1 _ _ _ _ I)|repeat constructor; exact HM].
  - rewrite En. apply Forall_app. split; [apply (i_pn1 _ _ _ _ I)|repeat constructor; exact HN].
  - intros h Hh. rewrite Eh in Hh. apply in_app_or in Hh. destruct Hh as [Hh|Hh]; [|apply New; exact Hh].
    destruct (i_terms _ _ _ _ I h Hh) as [g' [psi [phi [d [s [H1 [H2 [H3 [H4 H5]]]]]]]]]. exists g', psi, phi, d, s.
    split; [apply in_or_app; left; exact H1|]. do 3 (split; [assumption|]). rewrite nth_error_app1; [exact H5|apply Old; exact Hh].
  - intros h Hh. rewrite Eh in Hh |- *. apply in_app_or in Hh. destruct Hh as [Hh|Hh].
    + destruct (i_whole _ _ _ _ I h Hh) as [g' [bef [aft [us [E [U Hu]]]]]]. exists g', bef, (aft ++ ts), us. rewrite E, <- !app_assoc. auto.
    + exists g, (h_terms (m_ham m)), [], ts. rewrite app_nil_r. destruct (New h Hh) as [_ [-> [-> ->]]]. auto.
  - intros t Ht d. rewrite app_length in Ht. cbn in Ht. rewrite Eh. destruct (Nat.eq_dec t (List.length fs)) as [->|Nt].
    + destruct (operators_dags dim c g (List.length fs) f ts d Sp O) as [h [H1 H2]]. exists h. split; [apply in_or_app; right; exact H1|exact H2].
    + destruct (i_every _ _ _ _ I t ltac:(lia) d) as [h [H1 H2]]. exists h. split; [apply in_or_app; left; exact H1|exact H2].
  - rewrite Eh. apply NoDup_app; [apply (i_nodup _ _ _ _ I)|apply O|]. intros h H1 H2. apply Old in H1. destruct (New h H2) as [_ [_ [H3 _]]]. lia.
  - intros H. destruct fs; discriminate.
  - intros D. destruct (distinct_app _ _ D) as [D1 D2]. rewrite (i_freqs _ _ _ _ I D1) in W.
    destruct W as [[[x [Hx Ex]] _]|[_ W]]; [|exact W]. rewrite (D2 x Hx) in Ex. discriminate.
Qed.

Lemma inv_same : forall dim m m' fs cs, inv dim m fs cs -> m_ham m' = m_ham m -> m_pe m' = m_pe m -> m_pn m' = m_pn m -> m_ntypes m' = m_ntypes m -> inv dim m' fs cs.
Proof.
  intros dim m m' fs cs I Eh Ee En Et. destruct I. constructor; rewrite ?Eh, ?Ee, ?En, ?Et; assumption.
Qed.

(** The names of the couplings are only looked up, so a block may repeat one. *)
Lemma inv_names : forall dim m fs cs cs', inv dim m fs cs -> incl cs cs' -> (fs = [] -> cs' = []) -> inv dim m fs cs'.
Proof.
  intros dim m fs cs cs' I C C0. destruct I. constructor; try assumption.
  intros h Hh. destruct (i_terms0 h Hh) as [g [psi [phi [d [s [H1 H2]]]]]]. exists g, psi, phi, d, s. split; [apply C; exact H1|exact H2].
Qed.

Lemma built_inv : num_ok N -> forall dim m fs cs, built N dim m fs cs -> inv dim m fs cs.
Proof.
  intros K dim m fs cs B. induction B as [hop lat temp mps|m fs cs a logs m' B IH E L O|m fs cs x B IH|m fs cs x B IH|m fs cs x B IH|m fs cs x B IH].
  - split; cbn; [reflexivity|reflexivity|reflexivity|reflexivity|apply Forall_nil|apply Forall_nil|intros h []|intros h []|intros t Ht; lia|apply NoDup_nil|reflexivity|reflexivity].
  - destruct (add_outcome_any K m a logs m' E L) as [Sp [A [g [G D]]]]. unfold added in D. rewrite O in D. cbv zeta in D.
    destruct D as [_ [_ [_ [_ [Ed [_ [ts [Ots D]]]]]]]]. rewrite (i_nt _ _ _ _ IH), (i_dim _ _ _ _ IH) in Ots.
    destruct (n_ltb N (n_0 N) (m_temp m)) eqn:Eh.
    + destruct D as [Mt [Nt [ts' [fr [EM [EN [Ots' [Ee [En [Et [Eht [W1 W2]]]]]]]]]]]]. rewrite (i_nt _ _ _ _ IH), (i_dim _ _ _ _ IH) in Ots'.
      set (m1 := mkModel (m_lattice m) (m_temp m) (mkHam (h_terms (m_ham m) ++ ts) fr (h_dim (m_ham m)) (h_hop (m_ham m))) (m_mps m)
        (m_pe m ++ [a_M a]) (m_pn m ++ [a_N a]) (m_aext m) (S (m_ntypes m))).
      assert (I1 : inv dim m1 (fs ++ [a_freq a]) (cs ++ [a_type a])).
      { exact (inv_block dim m m1 fs cs (a_type a) _ (a_freq a) ts (a_M a) (a_N a) IH Sp (ac_M _ _ _ A) (ac_N _ _ _ A) Ots eq_refl eq_refl eq_refl eq_refl eq_refl W1). }
      assert (I2 : inv dim m' ((fs ++ [a_freq a]) ++ [n_opp N (a_freq a)]) ((cs ++ [a_type a]) ++ [a_type a])).
      { apply (inv_block dim m1 m' (fs ++ [a_freq a]) (cs ++ [a_type a]) (a_type a) (n_mul N g (snd (tfd_prefactors N (m_temp m) (a_freq a)))) (n_opp N (a_freq a)) ts' Mt Nt I1 Sp).
        - apply (ac_Mtfd _ _ _ A). exact EM.
        - apply (ac_Ntfd _ _ _ A). exact EN.
        - rewrite app_length, Nat.add_1_r. exact Ots'.
        - exact Ed.
        - rewrite Ee. cbn [m1 m_pe]. rewrite <- app_assoc. reflexivity.
        - rewrite En. cbn [m1 m_pn]. rewrite <- app_assoc. reflexivity.
        - exact Et.
        - rewrite Eht. cbn [m1 m_ham h_terms]. rewrite <- app_assoc. reflexivity.
        - exact W2. }
      rewrite <- app_assoc in I2. apply (inv_names dim m' _ _ _ I2).
      * intros c Hc. apply in_app_or in Hc. destruct Hc as [Hc|Hc]; [exact Hc|]. apply in_or_app. right. exact Hc.
      * intros H. destruct fs; discriminate.
    + destruct D as [Ee [En [Et [Eht W]]]]. exact (inv_block dim m m' fs cs (a_type a) _ (a_freq a) ts (a_M a) (a_N a) IH Sp (ac_M _ _ _ A) (ac_N _ _ _ A) Ots Ed Ee En Et Eht W).
  - eapply inv_same; [exact IH|..]; unfold set_temperature; destruct x as [v|]; try reflexivity; destruct (n_ltb N v (n_0 N)); reflexivity.
  - eapply inv_same; [exact IH|..]; unfold set_lattice; destruct x as [v|]; try reflexivity; destruct (n_ltb N v (n_0 N) || n_eqb N v (n_0 N)); reflexivity.
  - eapply inv_same; [exact IH|..]; unfold set_absolute_extent; destruct (Nat.ltb 1 (List.length (m_pe m))); reflexivity.
  - eapply inv_same; [exact IH|..]; reflexivity.
Qed.

Lemma op_shape : forall c psi phi d s, op_spec 1 c psi phi d s -> List.length psi = 1%nat /\ List.length phi = 1%nat.
Proof. intros c psi phi d s H. inversion H; subst; split; reflexivity. Qed.

Lemma lmaxZ_ge : forall l, l <> [] -> Forall (Z.le 1) l -> exists v, lmaxZ l = Some v /\ 1 <= v.
Proof.
  intros [|x l] H F; [congruence|]. inversion F as [|? ? F1 F2]; subst. eexists. split; [reflexivity|].
  clear H F. revert x F1. induction l as [|y l IH]; intros x F1; cbn; [exact F1|]. inversion F2; subst. apply IH; [assumption|lia].
Qed.

Lemma Forall_nth1 : forall l t, Forall (Z.le 1) l -> (t < List.length l)%nat -> 1 <= nth t l 0.
Proof. intros l t F H. rewrite Forall_forall in F. apply F. apply nth_In. exact H. Qed.

(** Histories that give models for which the engine is meant. *)
Lemma built_good : num_ok N -> forall m fs cs, built N 1 m fs cs -> cs <> [] -> distinct N fs ->
  (forall k, m_mps m = Some k -> 1 <= k) -> (forall k, m_aext m = Some k -> 1 <= k) ->
  (forall c, In c cs -> c = "BondPeierls"%string) \/ (forall c, In c cs -> c <> "BondPeierls"%string) ->
  exists ae, good_model m ae.
Proof.
  intros K m fs cs B Hc D Hm Ha Hb. pose proof (built_inv K 1 m fs cs B) as I.
  assert (Hf : fs <> []) by (intros ->; apply Hc; apply (i_cs _ _ _ _ I); reflexivity).
  assert (L1 : (1 <= List.length fs)%nat) by (destruct fs; [congruence|cbn; lia]).
  assert (AE : exists ae, absolute_extent m = Some ae /\ 1 <= ae).
  { unfold absolute_extent. destruct (m_aext m) as [e|] eqn:E; [exists e; split; [reflexivity|apply Ha; reflexivity]|].
    apply lmaxZ_ge; [|apply (i_pe1 _ _ _ _ I)]. intros H. pose proof (i_pe _ _ _ _ I) as P. rewrite H in P. cbn in P. lia. }
  destruct AE as [ae [AE AE1]]. exists ae.
  assert (X : forall h, In h (h_terms (m_ham m)) -> exists c psi phi, In c cs /\ List.length psi = 1%nat /\ List.length phi = 1%nat /\
     ht_psi h = mkVec false psi /\ ht_phi h = mkVec (String.eqb c "BondPeierls") phi /\ (ht_index h < m_ntypes m)%nat).
  { intros h Hh. destruct (i_terms _ _ _ _ I h Hh) as [g [psi [phi [d [s [H1 [H2 [H3 [H4 H5]]]]]]]]]. destruct (op_shape _ _ _ _ _ H3) as [P1 P2].
    exists (ht_type h), psi, phi. split; [exact H1|]. split; [exact P1|]. split; [exact P2|]. rewrite H4 at 1 2. split; [reflexivity|]. split; [reflexivity|].
    rewrite (i_nt _ _ _ _ I). apply nth_error_Some. congruence. }
  constructor.
  - unfold wf_model. rewrite (i_dim _ _ _ _ I), (i_pe _ _ _ _ I), (i_pn _ _ _ _ I), (i_nt _ _ _ _ I). auto.
  - exact AE.
  - exact AE1.
  - exact Hm.
  - intros t Ht. apply Forall_nth1; [apply (i_pe1 _ _ _ _ I)|]. rewrite (i_pe _ _ _ _ I), <- (i_nt _ _ _ _ I). exact Ht.
  - intros t Ht. apply Forall_nth1; [apply (i_pn1 _ _ _ _ I)|]. rewrite (i_pn _ _ _ _ I), <- (i_nt _ _ _ _ I). exact Ht.
  - rewrite (i_freqs _ _ _ _ I D), (i_nt _ _ _ _ I). lia.
  - intros h Hh. destruct (X h Hh) as [c [psi [phi [_ [_ [_ [_ [_ H]]]]]]]]. exact H.
  - intros h Hh. destruct (X h Hh) as [c [psi [phi [_ [_ [H [_ [-> _]]]]]]]]. exact H.
  - intros h Hh. destruct (X h Hh) as [c [psi [phi [_ [H [_ [-> _]]]]]]]. exact H.
  - intros t Ht. rewrite (i_nt _ _ _ _ I) in Ht. exact (i_every _ _ _ _ I t Ht Plus).
  - destruct (i_every _ _ _ _ I 0%nat ltac:(lia) Minus) as [h [H1 [_ H2]]]. exists h. auto.
  - intros h h' Hh Hh' F. destruct (X h Hh) as [c [psi [phi [C [_ [_ [-> [-> _]]]]]]]]. destruct (X h' Hh') as [c' [psi' [phi' [C' [_ [_ [_ [F' _]]]]]]]].
    rewrite F' in F. cbn [isf orb] in F |- *. apply String.eqb_eq in F. destruct Hb as [Hb|Hb].
    + apply String.eqb_eq. apply Hb. exact C.
    + exfalso. exact (Hb c' C' F).
Qed.

Lemma built_freqs : num_ok N -> forall dim m fs cs, built N dim m fs cs -> distinct N fs ->
  h_freqs (m_ham m) = fs /\ m_ntypes m = List.length fs /\ forall h, In h (h_terms (m_ham m)) -> nth_error fs (ht_index h) = Some (ht_freq h).
Proof.
  intros K dim m fs cs B D. pose proof (built_inv K dim m fs cs B) as I. split; [apply (i_freqs _ _ _ _ I D)|]. split; [apply (i_nt _ _ _ _ I)|].
  intros h Hh. destruct (i_terms _ _ _ _ I h Hh) as [g [psi [phi [d [s [_ [_ [_ [_ H]]]]]]]]]. exact H.
Qed.

Lemma map_opp_repeat0 : forall n, map Z.opp (repeat 0 n) = repeat 0 n.
Proof. induction n; cbn; [reflexivity|rewrite IHn; reflexivity]. Qed.
Lemma sub_repeat0 : forall n, map (fun p : Z * Z => fst p - snd p) (combine (repeat 0 n) (repeat 0 n)) = repeat 0 n.
Proof. induction n; cbn; [reflexivity|rewrite IHn; reflexivity]. Qed.

Lemma op_conj : forall dim c psi phi d s, op_spec dim c psi phi d s ->
  op_spec dim c (map Z.opp psi) (map (fun p => fst p - snd p) (combine phi psi)) (flip d) s.
Proof.
  intros dim c psi phi d s H. inversion H; subst.
  - rewrite map_opp_repeat0, sub_repeat0. constructor.
  - cbn [map combine fst snd flip]. replace (- (2 * s0)) with (2 * (- s0)) by lia. replace (2 * s0 - 2 * s0) with 0 by lia. apply op_edwards_destroy; lia.
  - cbn [map combine fst snd flip]. replace (- (2 * s0)) with (2 * (- s0)) by lia. replace (0 - 2 * s0) with (2 * (- s0)) by lia. apply op_edwards_create; lia.
  - cbn [map combine fst snd flip]. replace (- (2 * s0)) with (2 * (- s0)) by lia. replace (s0 - 2 * s0) with (- s0) by lia. apply op_bond; lia.
  - cbn [map combine fst snd flip]. replace (- (2 * s)) with (2 * (- s)) by lia. replace (0 - 2 * s) with (2 * (- s)) by lia.
    replace s with (- - s) at 3 by lia. apply op_peierls_there; lia.
  - cbn [map combine fst snd flip]. replace (- (2 * s0)) with (2 * (- s0)) by lia. replace (2 * s0 - 2 * s0) with 0 by lia. apply op_peierls_here; lia.
Qed.

Lemma op_reflect : forall dim c psi phi d s, op_spec dim c psi phi d s ->
  op_spec dim c (map Z.opp psi) (map Z.opp phi) d (if String.eqb c "Peierls" then - s else s).
Proof.
  intros dim c psi phi d s H. inversion H; subst; cbn [map String.eqb Ascii.eqb Bool.eqb].
  - rewrite map_opp_repeat0. constructor.
  - replace (- (2 * s0)) with (2 * (- s0)) by lia. apply op_edwards_create; lia.
  - replace (- (2 * s0)) with (2 * (- s0)) by lia. apply op_edwards_destroy; lia.
  - replace (- (2 * s0)) with (2 * (- s0)) by lia. apply op_bond; lia.
  - replace (- (2 * s)) with (2 * (- s)) by lia. apply op_peierls_here; lia.
  - replace (- (2 * s0)) with (2 * (- s0)) by lia. apply op_peierls_there; lia.
Qed.

Lemma op_sign : forall dim c psi phi d s, op_spec dim c psi phi d s -> s = 1 \/ s = -1.
Proof. intros dim c psi phi d s H. inversion H; subst; lia. Qed.

Lemma built_closed : num_ok N -> (forall x, n_opp N (n_opp N x) = x) -> forall dim m fs cs, built N dim m fs cs ->
  NoDup (h_terms (m_ham m)) /\ forall h, In h (h_terms (m_ham m)) ->
    In (conjugate h) (h_terms (m_ham m)) /\ In (reflect N h) (h_terms (m_ham m)).
Proof.
  intros K OO dim m fs cs B. pose proof (built_inv K dim m fs cs B) as I. split; [apply (i_nodup _ _ _ _ I)|]. intros h Hh.
  destruct (i_whole _ _ _ _ I h Hh) as [g [bef [aft [us [E [[_ U] Hu]]]]]]. rewrite E.
  assert (X : forall h', In h' us -> In h' (bef ++ us ++ aft)) by (intros h' H'; apply in_or_app; right; apply in_or_app; left; exact H').
  apply U in Hu. destruct Hu as [psi [phi [d [s [O Eh]]]]]. remember (ht_type h) as c eqn:Ec. remember (ht_index h) as i eqn:Ei. remember (ht_freq h) as f eqn:Ef. subst h.
  split; apply X; apply U.
  - unfold conjugate, vneg, vsub. cbn [ht_type ht_psi ht_phi ht_dag ht_coupling ht_index ht_freq isf v2 orb].
    do 4 eexists. split; [apply op_conj; exact O|]. rewrite orb_false_r. reflexivity.
  - unfold reflect, vneg. cbn [ht_type ht_psi ht_phi ht_dag ht_coupling ht_index ht_freq isf v2 orb].
    do 4 eexists. split; [apply op_reflect; exact O|]. f_equal. unfold signed. destruct (String.eqb c "Peierls"); [|reflexivity].
    destruct (op_sign _ _ _ _ _ _ O) as [-> | ->]; cbn; [reflexivity|apply OO].
Qed.
End P.
