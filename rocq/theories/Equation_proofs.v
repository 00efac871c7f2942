(** Lemmas on generalized equations of clouds of the variational space. *)
From Coq Require Import String ZArith List Bool Lia.
From Verif Require Import Base NdArray NdArray_proofs Config Spec Spec_ops Config_proofs Modify_proofs Legal_proofs
  Model Space Spec_space Space_proofs Render Render_proofs Term Equation Spec_engine Term_proofs.
Import ListNotations.
Open Scope list_scope.
Open Scope Z_scope.

Definition okl {A} (r : result (list A)) : list A := match r with Ok l => l | Err _ => [] end.

Lemma mapM_okl : forall {A B} (f : A -> result (list B)) l,
  (forall x, In x l -> exists y, f x = Ok y) ->
  mapM f l = Ok (map (fun x => okl (f x)) l).
Proof.
  intros A B f l H. apply mapM_ok. intros x Hx. destruct (H x Hx) as [y E]. rewrite E. reflexivity.
Qed.

Lemma concat_map : forall {A B} (f : A -> list B) l, concat (map f l) = flat_map f l.
Proof. intros. symmetry. apply flat_map_concat_map. Qed.

(** Clouds of the space. *)
Lemma space_unfold : forall {T} (m : model T) ae a, space m ae a ->
  valid_cloud a /\ ~ phonon_free a /\ 0 < total a /\ ntypes a = m_ntypes m /\ ndim a = 1%nat /\
  (exists z, shp a = [m_ntypes m; z] /\ 1 <= Z.of_nat z <= ae) /\ tight a /\
  (forall k, m_mps m = Some k -> forall t x, occ a t x <= k) /\
  (forall t, (t < m_ntypes m)%nat -> within_extent a t (nth t (m_pe m) 0)) /\
  (forall t, (t < m_ntypes m)%nat -> total_type a t <= nth t (m_pn m) 0).
Proof.
  intros T m ae a [W [[z [Sh Hz]] [_ L]]].
  pose proof (legal_valid a _ _ _ W L) as V.
  destruct L as [[F _]|[R [NN [TT [L1 [L2 L3]]]]]]; [discriminate|].
  assert (NF : ~ phonon_free a) by (apply tight_not_free; assumption).
  assert (NT : ntypes a = m_ntypes m) by (unfold ntypes; rewrite Sh; reflexivity).
  split; [exact V|]. split; [exact NF|]. split; [apply valid_not_free_pos; assumption|]. split; [exact NT|].
  split; [unfold ndim; rewrite Sh; reflexivity|]. split; [exists z; split; assumption|]. split; [exact TT|].
  split; [exact L1|]. rewrite NT in *. split; [apply L2; reflexivity|apply L3; reflexivity].
Qed.

Lemma space_intro : forall {T} (m : model T) ae a, valid_cloud a -> ~ phonon_free a ->
  (exists z, shp a = [m_ntypes m; z] /\ Z.of_nat z <= ae) ->
  (forall k, m_mps m = Some k -> forall t x, occ a t x <= k) ->
  (forall t, (t < m_ntypes m)%nat -> within_extent a t (nth t (m_pe m) 0)) ->
  (forall t, (t < m_ntypes m)%nat -> total_type a t <= nth t (m_pn m) 0) -> space m ae a.
Proof.
  intros T m ae a V NF [z [Sh Hz]] L1 L2 L3.
  assert (TT : tight a) by (apply valid_tight; [exact V|apply valid_not_free_pos; assumption]).
  assert (NT : ntypes a = m_ntypes m) by (unfold ntypes; rewrite Sh; reflexivity).
  split; [apply valid_wf; exact V|]. split.
  - exists z. split; [exact Sh|]. split; [|exact Hz].
    assert (D : (0 < ndim a)%nat) by (unfold ndim; rewrite Sh; simpl; lia).
    destruct (TT 0%nat D) as [O _]. apply occupied_slab_range in O; [|exact D]. rewrite Sh in O. simpl in O. lia.
  - split; [reflexivity|]. right. split; [apply valid_rank; exact V|].
    split; [apply (proj1 (occ_nonneg a ltac:(pose proof (valid_rank a V); lia)) (valid_nonneg a V))|].
    split; [exact TT|]. split; [exact L1|]. rewrite NT. split; intros l E; injection E as <-; assumption.
Qed.

Lemma eqlZ_refl : forall x, eqlZ x x = true.
Proof. intros. apply eqlZ_eq. reflexivity. Qed.

(** Clouds are determined by their occupation up to translation. *)
Lemma modified_unique : forall a b b' s s' t x e, valid_cloud a -> valid_cloud b -> valid_cloud b' ->
  ~ phonon_free b -> ~ phonon_free b' ->
  modified_by a b s t x e -> modified_by a b' s' t x e -> b' = b /\ s' = s.
Proof.
  intros a b b' s s' t x e Va V V' NF NF' [A1 [A2 [A3 A4]]] [B1 [B2 [B3 B4]]].
  assert (TT := valid_tight b V (valid_not_free_pos b V NF)).
  assert (TT' := valid_tight b' V' (valid_not_free_pos b' V' NF')).
  assert (Ra := valid_rank a Va).
  assert (N : ndim b = ndim a) by (unfold ndim; lia).
  destruct (tight_unique b b' (subv s' s) (valid_wf b V) (valid_wf b' V') (valid_rank b V) TT TT') as [E1 E2].
  - lia.
  - congruence.
  - rewrite length_subv; lia.
  - intros t' y Hy. rewrite N in Hy. rewrite B4 by exact Hy. rewrite A4 by (rewrite length_addv; rewrite ?length_subv; lia).
    assert (EE : addv (addv y (subv s' s)) s = addv y s').
    { rewrite addv_assoc by (rewrite ?length_subv; lia). rewrite addv_subv by lia. reflexivity. }
    rewrite EE. reflexivity.
  - split; [exact E2|]. rewrite N in E1.
    apply (addv_inj s' s (oppv s)); rewrite ?length_oppv; try lia.
    fold (subv s' s). fold (subv s s). rewrite E1.
    apply vec_ext; [rewrite length_zerov, length_subv; lia|]. intros n. rewrite nth_zerov, nth_subv by lia. lia.
Qed.

Section OneD.
Context {T : Type}.
Variable m : model T.
Variable ae : Z.
Hypothesis G : good_model m ae.

Lemma hd_addv : forall x s, List.length x = 1%nat -> List.length s = 1%nat -> hd 0 (addv x s) = hd 0 x + hd 0 s.
Proof. intros [|u [|]] [|v [|]]; simpl; intros; try lia. Qed.

Lemma slab_1d : forall a p, ndim a = 1%nat -> (occupied_slab a 0 p <-> exists t, 0 < occ a t [p]).
Proof.
  intros a p N. unfold occupied_slab. rewrite N. split.
  - intros [t [x [Hx [Hp Ho]]]]. destruct x as [|y [|]]; simpl in *; try discriminate. subst y. exists t. exact Ho.
  - intros [t Ho]. exists t, [p]. repeat split. exact Ho.
Qed.

Lemma occ_range : forall a t x L, shp a = [m_ntypes m; L] -> 0 < occ a t x ->
  (t < m_ntypes m)%nat /\ exists p, x = [p] /\ 0 <= p < Z.of_nat L.
Proof.
  intros a t x L Sh Ho. pose proof (inb_cons_occ a t x ltac:(lia)) as I. rewrite Sh in I. simpl in I.
  destruct x as [|p [|q r]]; simpl in I; try (rewrite ?andb_false_r in I; discriminate).
  split; [lia|]. exists p. split; [reflexivity|]. lia.
Qed.

(** Destroying a phonon stays in the space. *)
Lemma remove_in_space : forall a b s t x, space m ae a -> valid_cloud b -> ~ phonon_free b ->
  modified_by a b s t x (-1) -> 0 < occ a t x -> space m ae b.
Proof.
  intros a b s t x Sa Vb NF M Ho.
  destruct (space_unfold m ae a Sa) as [V [NFa [P [NT [N1 [[L [Sh HL]] [TT [L1 [L2 L3]]]]]]]]].
  pose proof M as [M1 [M2 [M3 M4]]]. rewrite N1 in M3, M4.
  destruct (occ_range a t x L Sh Ho) as [Ht [p [-> Hp]]].
  assert (Nb : ndim b = 1%nat) by (unfold ndim in *; lia).
  assert (Ra := valid_rank a V).
  assert (Q : forall t' y, List.length y = 1%nat -> occ b t' y <= occ a t' (addv y s)).
  { intros t' y Hy. rewrite M4 by exact Hy. destruct (_ && _); lia. }
  assert (Lb : exists z, shp b = [m_ntypes m; z]).
  { unfold ndim, ntypes in *. destruct (shp b) as [|u [|z [|]]]; simpl in *; try lia. exists z. f_equal. lia. }
  destruct Lb as [z Shb].
  apply space_intro; try assumption.
  - exists z. split; [exact Shb|].
    assert (TB := valid_tight b Vb (valid_not_free_pos b Vb NF)).
    destruct (TB 0%nat ltac:(lia)) as [O1 O2]. rewrite slab_1d in O1, O2 by exact Nb. rewrite Shb in O2. simpl in O2.
    destruct O1 as [t1 O1]. destruct O2 as [t2 O2].
    destruct s as [|s0 [|]]; simpl in M3; try discriminate.
    pose proof (Q t1 [0] eq_refl) as Q1. pose proof (Q t2 [Z.of_nat z - 1] eq_refl) as Q2. simpl in Q1, Q2.
    destruct (occ_range a t1 [s0] L Sh ltac:(lia)) as [_ [p1 [E1 H1]]].
    destruct (occ_range a t2 [Z.of_nat z - 1 + s0] L Sh ltac:(lia)) as [_ [p2 [E2 H2]]].
    injection E1 as E1. injection E2 as E2. lia.
  - intros k Hk t' y. destruct (Z.le_gt_cases (occ b t' y) 0) as [H|H].
    + pose proof (L1 k Hk t [p]). lia.
    + assert (Hy : List.length y = 1%nat) by (rewrite <- Nb; apply (occ_length b t'); [lia|rewrite Shb; simpl; lia]).
      pose proof (Q t' y Hy). pose proof (L1 k Hk t' (addv y s)). lia.
  - intros t' Ht'. destruct (L2 t' Ht') as [E0 E1]. split; [exact E0|]. intros y1 y2 O1 O2.
    assert (B0 : forall y, occ b t' y <> 0 -> List.length y = 1%nat /\ occ a t' (addv y s) <> 0).
    { intros y Hy. assert (H : List.length y = 1%nat) by (rewrite <- Nb; apply (occ_length b t'); [exact Hy|rewrite Shb; simpl; lia]).
      split; [exact H|]. pose proof (Q t' y H). pose proof (proj1 (occ_nonneg b ltac:(rewrite Shb; simpl; lia)) (valid_nonneg b Vb) t' y). lia. }
    destruct (B0 y1 O1) as [K1 K2]. destruct (B0 y2 O2) as [K3 K4].
    specialize (E1 _ _ K2 K4). rewrite !hd_addv in E1 by assumption. lia.
  - intros t' Ht'. rewrite (modified_total_type a b s t [p] (-1) t' (valid_wf a V) (valid_wf b Vb)); try assumption; try lia.
    + pose proof (L3 t' Ht'). destruct (Nat.eqb t' t); lia.
    + rewrite N1. reflexivity.
Qed.

(** Creating a phonon: what the code checks is membership in the space. *)
Lemma add_in_space : forall a b s t x L, space m ae a -> shp a = [m_ntypes m; L] ->
  valid_cloud b -> ~ phonon_free b -> modified_by a b s t [x] 1 -> (t < m_ntypes m)%nat ->
  Z.of_nat (nth 1 (shp b) 0%nat) = Z.max (Z.of_nat L) (x + 1) - Z.min x 0 ->
  (space m ae b <->
   legal_spec b (m_mps m) (Some (m_pe m)) None true /\
   total_type a t + 1 <= nth t (m_pn m) 0 /\ Z.of_nat L - ae <= x < ae).
Proof.
  intros a b s t x L Sa Sh Vb NF M Ht SL.
  destruct (space_unfold m ae a Sa) as [V [NFa [P [NT [N1 [[L' [Sh' HL]] [TT [L1 [L2 L3]]]]]]]]].
  rewrite Sh in Sh'. injection Sh' as <-.
  pose proof M as [M1 [M2 [M3 M4]]].
  assert (Nb : ndim b = 1%nat) by (unfold ndim in *; lia).
  assert (TTy : forall t', (t' < m_ntypes m)%nat -> total_type b t' = total_type a t' + if Nat.eqb t' t then 1 else 0).
  { intros t' Ht'. apply (modified_total_type a b s t [x] 1 t' (valid_wf a V) (valid_wf b Vb)); try assumption; try lia.
    - pose proof (valid_rank a V); lia.
    - rewrite N1; reflexivity. }
  assert (Lb : exists z, shp b = [m_ntypes m; z]).
  { unfold ndim, ntypes in *. destruct (shp b) as [|u [|z [|]]]; simpl in *; try lia. exists z. f_equal. lia. }
  destruct Lb as [z Shb]. rewrite Shb in SL. simpl in SL.
  split.
  - intros Sb. destruct (space_unfold m ae b Sb) as [_ [_ [_ [NTb [_ [[z' [Shz Hz]] [TB [B1 [B2 B3]]]]]]]]].
    rewrite Shb in Shz. injection Shz as <-.
    split; [|split].
    + right. split; [apply valid_rank; exact Vb|].
      split; [apply (proj1 (occ_nonneg b ltac:(rewrite Shb; simpl; lia)) (valid_nonneg b Vb))|].
      split; [exact TB|]. split; [exact B1|]. rewrite NTb. split; [intros e E; injection E as <-; exact B2|discriminate].
    + specialize (B3 t Ht). rewrite (TTy t Ht), Nat.eqb_refl in B3. exact B3.
    + lia.
  - intros [LS [HN Hx]]. destruct LS as [[_ F]|[_ [_ [TB [B1 [B2 _]]]]]]; [contradiction|].
    assert (NTb : ntypes b = m_ntypes m) by congruence. rewrite NTb in B2.
    apply space_intro; try assumption.
    + exists z. split; [exact Shb|]. lia.
    + apply B2. reflexivity.
    + intros t' Ht'. rewrite (TTy t' Ht'). pose proof (L3 t' Ht').
      destruct (Nat.eqb t' t) eqn:E; [apply Nat.eqb_eq in E; subst t'; lia|lia].
Qed.

Lemma In_creat_sites : forall L x, Z.of_nat L <= ae ->
  (In x (creat_sites ae [L]) <-> exists z, x = [z] /\ Z.of_nat L - ae <= z < ae).
Proof.
  intros L x HL. unfold creat_sites. rewrite in_map_iff. split.
  - intros [i [E Hi]]. apply In_all_idx in Hi. cbn [map] in Hi.
    remember (Z.to_nat (2 * ae - Z.of_nat L)) as K eqn:EK.
    inversion Hi as [|d y s i' H1 H2]; subst i d. inversion H2; subst. cbn [combine map fst snd].
    eexists. split; [reflexivity|]. lia.
  - intros [z [-> Hz]]. exists [Z.to_nat (z + ae - Z.of_nat L)]. split.
    + cbn [combine map fst snd]. f_equal. lia.
    + apply In_all_idx. cbn [map]. constructor; [lia|constructor].
Qed.

Lemma NoDup_creat_sites : forall L, NoDup (creat_sites ae [L]).
Proof.
  intros L. apply NoDup_map_inj; [|apply NoDup_all_idx].
  intros i j Hi Hj E. apply In_all_idx in Hi, Hj. cbn [map] in Hi, Hj.
  remember (Z.to_nat (2 * ae - Z.of_nat L)) as K eqn:EK.
  inversion Hi as [|d y s i' H1 H2]; subst. inversion H2; subst.
  inversion Hj as [|d' y' s' j' H1' H2']; subst. inversion H2'; subst.
  simpl in E. injection E as E. f_equal. lia.
Qed.

(** The sites at which the code tries to create a phonon of [h]'s type. *)
Definition plus_sites (a : nd) (h : hterm T) : list (list Z) :=
  if nth (ht_index h) (m_pn m) 0 <? total_type a (ht_index h) + 1 then []
  else creat_sites ae (tl (shp a)).

Lemma h_facts : forall a h, space m ae a -> In h (h_terms (m_ham m)) ->
  valid_cloud a /\ ~ phonon_free a /\ List.length (v2 (ht_phi h)) = ndim a /\ List.length (v2 (ht_psi h)) = ndim a /\
  (ntypes a <= List.length (h_freqs (m_ham m)))%nat /\ (ntypes a <= List.length (m_pe m))%nat /\
  (ht_index h < ntypes a)%nat.
Proof.
  intros a h Sa Hh. destruct (space_unfold m ae a Sa) as [V [NFa [P [NT [N1 _]]]]].
  destruct (gm_wf _ _ G) as [W1 [W2 [W3 W4]]].
  rewrite N1, NT. split; [exact V|]. split; [exact NFa|]. split; [apply (gm_phi _ _ G); exact Hh|].
  split; [apply (gm_psi _ _ G); exact Hh|]. split; [apply (gm_freqs _ _ G)|]. split; [lia|apply (gm_index _ _ G); exact Hh].
Qed.

Lemma annih_term : forall a h i, space m ae a -> In h (h_terms (m_ham m)) -> inr (tl (shp a)) i ->
  let x := map Z.of_nat i in let n := occ a (ht_index h) x in
  (n = 0 /\ annih_at m a h i = Ok []) \/
  (0 < n /\ exists t, annih_at m a h i = Ok [t] /\ term_for m a h x (-1) n t /\ term_flags KAnnih h t /\
     total (cfg (t_cfg t)) = total a - 1 /\ (phonon_free (cfg (t_cfg t)) \/ space m ae (cfg (t_cfg t)))).
Proof.
  intros a h i Sa Hh Hi x n. destruct (h_facts a h Sa Hh) as [V [NF [Hphi [Hpsi [Hf [Hpe Ht]]]]]].
  destruct (annih_at_spec m a h i V Hphi Hpsi Hf Hpe Ht Hi) as [H|[Hn [t [ok [E [TF [FL [TB LS]]]]]]]]; [left; exact H|].
  right. split; [exact Hn|]. exists t.
  assert (D : phonon_free (cfg (t_cfg t)) \/ space m ae (cfg (t_cfg t))).
  { pose proof TF as [s [Vb [M _]]]. destruct (Z.eq_dec (total (cfg (t_cfg t))) 0) as [Z0|NZ].
    - left. apply valid_total_free; assumption.
    - right. apply (remove_in_space a _ s (ht_index h) x); try assumption.
      intros F. apply valid_total_free in F; [lia|exact Vb]. }
  assert (OK : ok = true).
  { apply LS. destruct D as [F|S]; [left; split; [reflexivity|exact F]|].
    destruct (space_unfold m ae _ S) as [Vb [_ [_ [NTb [_ [[z [Shb _]] [TB' [B1 [B2 B3]]]]]]]]].
    right. split; [apply valid_rank; exact Vb|].
    split; [apply (proj1 (occ_nonneg _ ltac:(rewrite Shb; simpl; lia)) (valid_nonneg _ Vb))|].
    split; [exact TB'|]. split; [exact B1|]. rewrite NTb. split; [intros e Ee; injection Ee as <-; exact B2|discriminate]. }
  rewrite OK in E. split; [exact E|]. split; [exact TF|]. split; [exact FL|]. split; [exact TB|exact D].
Qed.

Lemma creat_term : forall a h x, space m ae a -> In h (h_terms (m_ham m)) -> List.length x = 1%nat ->
  exists t ok, creat_at m a h x = Ok (if ok : bool then [t] else []) /\
     term_for m a h x 1 1 t /\ term_flags KCreat h t /\ total (cfg (t_cfg t)) = total a + 1 /\
     ~ phonon_free (cfg (t_cfg t)) /\
     (space m ae (cfg (t_cfg t)) <-> ok = true /\ In x (plus_sites a h)).
Proof.
  intros a h x Sa Hh Hx. destruct (h_facts a h Sa Hh) as [V [NF [Hphi [Hpsi [Hf [Hpe Ht]]]]]].
  destruct (space_unfold m ae a Sa) as [_ [NFa [P [NT [N1 [[L [Sh HL]] _]]]]]].
  destruct (creat_at_spec m a h x V NF Hphi Hpsi Hf Hpe Ht ltac:(lia)) as [t [ok [E [TF [FL [TB [SL LS]]]]]]].
  exists t, ok. split; [exact E|]. split; [exact TF|]. split; [exact FL|]. split; [exact TB|].
  pose proof TF as [s [Vb [M _]]].
  assert (NFb : ~ phonon_free (cfg (t_cfg t))).
  { intros F. apply valid_total_free in F; [lia|exact Vb]. }
  split; [exact NFb|].
  destruct x as [|z [|]]; try discriminate.
  specialize (SL 0%nat ltac:(lia)). rewrite Sh in SL. cbn [nth] in SL.
  rewrite NT in Ht.
  rewrite (add_in_space a _ s (ht_index h) z L Sa Sh Vb NFb M Ht SL), LS.
  unfold plus_sites. rewrite Sh. cbn [tl].
  destruct (_ <? _) eqn:E2.
  - split; [intros [_ [H _]]; lia|intros [_ []]].
  - rewrite In_creat_sites by lia. split.
    + intros [H1 [H2 H3]]. split; [exact H1|]. exists z. split; [reflexivity|exact H3].
    + intros [H1 [z' [Ez Hz]]]. injection Ez as <-. split; [exact H1|]. split; [lia|exact Hz].
Qed.

Lemma sites_length : forall a h x, space m ae a -> In x (plus_sites a h) -> List.length x = 1%nat.
Proof.
  intros a h x Sa. destruct (space_unfold m ae a Sa) as [_ [_ [_ [_ [_ [[L [Sh HL]] _]]]]]].
  unfold plus_sites. rewrite Sh. cbn [tl]. destruct (_ <? _); [intros []|].
  rewrite In_creat_sites by lia. intros [z [-> _]]. reflexivity.
Qed.

(** The generalized equation, term by term and in order. *)
Definition h_rhs (a : nd) (h : hterm T) : list (term T) :=
  match ht_dag h with
  | Minus => flat_map (fun i => okl (annih_at m a h i)) (all_idx (tl (shp a)))
  | Plus => flat_map (fun x => okl (creat_at m a h x)) (plus_sites a h)
  end.

Lemma terms_of_spec : forall a h, space m ae a -> In h (h_terms (m_ham m)) ->
  terms_of m a h = Ok (h_rhs a h).
Proof.
  intros a h Sa Hh. destruct (h_facts a h Sa Hh) as [V [NF [Hphi [Hpsi [Hf [Hpe Ht]]]]]].
  destruct (space_unfold m ae a Sa) as [_ [_ [_ [NT [N1 [[L [Sh HL]] _]]]]]].
  destruct (gm_wf _ _ G) as [W1 [W2 [W3 W4]]].
  unfold terms_of, h_rhs. fold (ntypes a). unfold guard at 1. rewrite (proj2 (Nat.ltb_lt _ _) Ht). cbn [bind].
  destruct (ht_dag h) eqn:Ed.
  - rewrite (nth_error_nth' (m_pn m) 0) by lia. unfold plus_sites. destruct (_ <? _) eqn:E2; [reflexivity|].
    rewrite (gm_ae _ _ G). rewrite Sh. cbn [tl existsb]. replace (ae <? Z.of_nat L) with false by lia. cbn [orb negb guard bind].
    rewrite mapM_okl; [cbn [bind]; rewrite concat_map; reflexivity|].
    intros x Hx. apply In_creat_sites in Hx; [|lia]. destruct Hx as [z [-> _]].
    destruct (creat_term a h [z] Sa Hh eq_refl) as [t [ok [E _]]]. rewrite E. eexists; reflexivity.
  - rewrite mapM_okl; [cbn [bind]; rewrite concat_map; reflexivity|].
    intros i Hi. apply In_all_idx in Hi.
    destruct (annih_term a h i Sa Hh Hi) as [[_ E]|[_ [t [E _]]]]; rewrite E; eexists; reflexivity.
Qed.

Lemma initialize_spec : forall a, space m ae a ->
  initialize_terms m a = Ok (flat_map (h_rhs a) (h_terms (m_ham m))).
Proof.
  intros a Sa. unfold initialize_terms. rewrite mapM_ok with (g := h_rhs a).
  - cbn [bind]. rewrite concat_map. reflexivity.
  - intros h Hh. apply terms_of_spec; assumption.
Qed.

(** Where a term of the equation comes from. *)
Lemma In_h_rhs : forall a h t, space m ae a -> In h (h_terms (m_ham m)) ->
  (In t (h_rhs a h) <->
   (ht_dag h = Minus /\ exists i, inr (tl (shp a)) i /\ annih_at m a h i = Ok [t]) \/
   (ht_dag h = Plus /\ exists x, In x (plus_sites a h) /\ creat_at m a h x = Ok [t])).
Proof.
  intros a h t Sa Hh. unfold h_rhs. destruct (ht_dag h) eqn:Ed; rewrite in_flat_map.
  - split.
    + intros [x [Hx Ht]]. right. split; [reflexivity|]. exists x. split; [exact Hx|].
      pose proof (sites_length a h x Sa Hx) as Lx.
      destruct (creat_term a h x Sa Hh Lx) as [t' [ok [E _]]]. rewrite E in *. destruct ok; [|destruct Ht].
      destruct Ht as [->|[]]. reflexivity.
    + intros [[D _]|[_ [x [Hx E]]]]; [discriminate|]. exists x. split; [exact Hx|]. rewrite E. left; reflexivity.
  - split.
    + intros [i [Hi Ht]]. left. split; [reflexivity|]. apply In_all_idx in Hi. exists i. split; [exact Hi|].
      destruct (annih_term a h i Sa Hh Hi) as [[_ E]|[_ [t' [E _]]]]; rewrite E in *; [destruct Ht|].
      destruct Ht as [->|[]]. reflexivity.
    + intros [[_ [i [Hi E]]]|[D _]]; [|discriminate]. exists i. split; [apply In_all_idx; exact Hi|]. rewrite E. left; reflexivity.
Qed.

Definition gen_terms (a : nd) : list (term T) := flat_map (h_rhs a) (h_terms (m_ham m)).

Lemma gen_term_sound : forall a t, space m ae a -> In t (gen_terms a) ->
  exists h x e mult kd, In h (h_terms (m_ham m)) /\ List.length x = 1%nat /\ term_for m a h x e mult t /\ term_flags kd h t /\
    (kd = KAnnih \/ kd = KCreat) /\
    ((ht_dag h = Minus /\ e = -1 /\ mult = occ a (ht_index h) x /\ 0 < mult /\
        total (cfg (t_cfg t)) = total a - 1) \/
     (ht_dag h = Plus /\ e = 1 /\ mult = 1 /\ total (cfg (t_cfg t)) = total a + 1)) /\
    (phonon_free (cfg (t_cfg t)) \/ space m ae (cfg (t_cfg t))).
Proof.
  intros a t Sa Ht. unfold gen_terms in Ht. apply in_flat_map in Ht. destruct Ht as [h [Hh Ht]].
  apply In_h_rhs in Ht; try assumption. destruct Ht as [[D [i [Hi E]]]|[D [x [Hx E]]]].
  - destruct (annih_term a h i Sa Hh Hi) as [[_ E']|[Hn [t' [E' [TF [FL [TB SP]]]]]]]; rewrite E in E'; [discriminate|].
    injection E' as <-. exists h, (map Z.of_nat i), (-1), (occ a (ht_index h) (map Z.of_nat i)), KAnnih.
    split; [exact Hh|].
    split; [destruct (space_unfold m ae a Sa) as [_ [_ [_ [_ [N1 _]]]]]; rewrite map_length, (inr_length _ _ Hi), length_tl_shp; exact N1|].
    split; [exact TF|]. split; [exact FL|]. split; [left; reflexivity|]. split; [left; repeat split; assumption|exact SP].
  - pose proof (sites_length a h x Sa Hx) as Lx.
    destruct (creat_term a h x Sa Hh Lx) as [t' [ok [E' [TF [FL [TB [NF SP]]]]]]]. rewrite E in E'.
    destruct ok; [|discriminate]. injection E' as <-. exists h, x, 1, 1, KCreat.
    split; [exact Hh|]. split; [exact Lx|]. split; [exact TF|]. split; [exact FL|]. split; [right; reflexivity|].
    split; [right; repeat split; assumption|]. right. apply SP. split; [reflexivity|exact Hx].
Qed.

(** Every cloud with at least two phonons is produced by some equation. *)
Lemma reached_by_creation : forall c, space m ae c -> 1 < total c ->
  exists b t, space m ae b /\ In t (gen_terms b) /\ cfg (t_cfg t) = c.
Proof.
  intros c Sc P. destruct (space_unfold m ae c Sc) as [V [NF [_ [NT [N1 [[L [Sh HL]] [TT _]]]]]]].
  destruct (total_pos_ex c (valid_wf c V) ltac:(lia)) as [y Hy].
  destruct (at_head c y ltac:(lia) ltac:(rewrite Sh; simpl; lia)) as [t [x [-> [Ht Hx]]]].
  change (0 < occ c t x) in Hy.
  destruct (remove_spec c 1 0 t x V ltac:(lia) Hy) as [b [s [_ [Vb [M [Tb [Ps _]]]]]]].
  set (sv := shift_vec (ndim c) s) in *.
  assert (NFb : ~ phonon_free b) by (intros F; apply valid_total_free in F; [lia|exact Vb]).
  assert (Sb : space m ae b) by (apply (remove_in_space c b sv t x); assumption).
  destruct M as [M1 [M2 [M3 M4]]].
  assert (Nb : ndim b = 1%nat) by (unfold ndim in *; lia).
  assert (M' : modified_by b c (oppv sv) t (subv x sv) 1).
  { split; [lia|]. split; [congruence|]. split; [rewrite length_oppv; lia|]. intros t' y Hyl.
    rewrite M4 by (rewrite length_addv; rewrite ?length_oppv; lia).
    change (addv y (oppv sv)) with (subv y sv). rewrite addv_subv by lia.
    assert (EE : eqlZ (subv y sv) (subv x sv) = eqlZ y x).
    { apply eq_true_iff_eq. rewrite !eqlZ_eq. split; [|intros ->; reflexivity].
      intros H. apply (addv_inj y x (oppv sv)); rewrite ?length_oppv; try lia. exact H. }
    rewrite EE. destruct (_ && _); lia. }
  destruct (gm_plus _ _ G t) as [h [Hh [Hi Hd]]]; [lia|].
  assert (Lx : List.length (subv x sv) = 1%nat) by (rewrite length_subv; lia).
  destruct (creat_term b h (subv x sv) Sb Hh Lx) as [tt [ok [E [TF [FL [TB [NF' SP]]]]]]].
  pose proof TF as [s' [Vt [Mt _]]]. rewrite Hi in Mt.
  destruct (modified_unique b c (cfg (t_cfg tt)) (oppv sv) s' t (subv x sv) 1 Vb V Vt NF NF' M' Mt) as [EC _].
  exists b, tt. split; [exact Sb|]. split; [|exact EC].
  rewrite EC in SP. destruct (proj1 SP Sc) as [-> HS].
  unfold gen_terms. apply in_flat_map. exists h. split; [exact Hh|]. apply In_h_rhs; try assumption.
  right. split; [exact Hd|]. exists (subv x sv). split; assumption.
Qed.

(** One-phonon clouds. *)
Lemma one_phonon : forall c, space m ae c -> total c = 1 ->
  exists t, (t < m_ntypes m)%nat /\ c = single_phonon (m_ntypes m) 1 t.
Proof.
  intros c Sc P. destruct (space_unfold m ae c Sc) as [V [NF [_ [NT [N1 [[L [Sh HL]] [TT _]]]]]]].
  destruct (total_pos_ex c (valid_wf c V) ltac:(lia)) as [y Hy].
  destruct (at_head c y ltac:(lia) ltac:(rewrite Sh; simpl; lia)) as [t [x [-> [Ht Hx]]]].
  change (0 < occ c t x) in Hy. exists t. split; [lia|].
  assert (Hi : exists i, inr (shp c) (t :: i) /\ x = map Z.of_nat i /\ get c (t :: i) = occ c t x).
  { destruct (occ_inv c t x ltac:(rewrite Sh; simpl; lia) ltac:(lia)) as [i [-> [_ [Hi E]]]].
    exists i. split; [apply inr_cons; [rewrite Sh; simpl; lia|exact Ht|exact Hi]|]. split; [reflexivity|exact E]. }
  destruct Hi as [i [Hi [-> Eg]]].
  assert (Z0 : total (upd c (t :: i) (-1)) = 0) by (rewrite total_upd; [lia|apply valid_wf; exact V|exact Hi]).
  assert (NN : nonneg (upd c (t :: i) (-1))) by (apply upd_nonneg; [apply valid_nonneg; exact V|exact Hi|lia]).
  pose proof (total_zero _ (wf_upd _ _ _) NN Z0) as AZ.
  assert (O : forall t' y, occ c t' y = if Nat.eqb t' t && eqlZ y (map Z.of_nat i) then 1 else 0).
  { intros t' y. specialize (AZ (Z.of_nat t' :: y)). fold (occ (upd c (t :: i) (-1)) t' y) in AZ.
    rewrite occ_upd in AZ by exact Hi. destruct (_ && _); lia. }
  destruct (TT 0%nat ltac:(lia)) as [O1 O2]. rewrite slab_1d in O1, O2 by exact N1.
  rewrite Sh in O2. cbn [nth] in O2. destruct O1 as [t1 O1]. destruct O2 as [t2 O2]. rewrite O in O1, O2.
  destruct (Nat.eqb t1 t && eqlZ [0] (map Z.of_nat i)) eqn:E1; [|lia].
  destruct (Nat.eqb t2 t && eqlZ [Z.of_nat L - 1] (map Z.of_nat i)) eqn:E2; [|lia].
  apply andb_true_iff in E1, E2. destruct E1 as [_ E1]. destruct E2 as [_ E2].
  apply eqlZ_eq in E1, E2. rewrite <- E1 in *. assert (L = 1%nat) by (injection E2; lia). subst L.
  apply at_ext.
  - apply valid_wf; exact V.
  - apply wf_tab.
  - rewrite Sh. reflexivity.
  - intros z. destruct z as [|z0 y].
    + unfold at_. rewrite Sh. reflexivity.
    + destruct (Z.le_gt_cases 0 z0) as [Pz|Pz].
      * rewrite <- (Z2Nat.id z0 Pz). change (occ c (Z.to_nat z0) y = occ (single_phonon (m_ntypes m) 1 t) (Z.to_nat z0) y).
        destruct (Nat.eq_dec (List.length y) 1) as [Ly|Ly].
        -- rewrite single_phonon_occ by (auto; lia). rewrite O. reflexivity.
        -- rewrite O. destruct (eqlZ y [0]) eqn:EY; [apply eqlZ_eq in EY; subst y; simpl in Ly; lia|]. rewrite andb_false_r.
           unfold occ, at_. destruct (inb _ _) eqn:EI; [|reflexivity]. apply inb_length in EI. simpl in EI. lia.
      * unfold at_. rewrite Sh. simpl. destruct z0; try lia. reflexivity.
Qed.

Lemma single_in_space : forall t, (t < m_ntypes m)%nat -> space m ae (single_phonon (m_ntypes m) 1 t) /\
  total (single_phonon (m_ntypes m) 1 t) = 1.
Proof.
  intros t Ht. destruct (single_phonon_valid (m_ntypes m) 1 t Ht ltac:(lia)) as [V [NF [N1 N2]]].
  set (c := single_phonon (m_ntypes m) 1 t) in *.
  assert (O : forall t' x, List.length x = 1%nat -> occ c t' x = if Nat.eqb t' t && eqlZ x [0] then 1 else 0).
  { intros. apply single_phonon_occ; assumption. }
  assert (TTy : forall t', (t' < m_ntypes m)%nat -> total_type c t' = if Nat.eqb t' t then 1 else 0).
  { intros t' Ht'. unfold total_type, c, single_phonon. cbn [shp tl tab repeat].
    change (all_idx [1%nat]) with [[0%nat]]. cbn [map sumZ fold_right].
    fold (tab (m_ntypes m :: [1%nat]) (fun i => if Nat.eqb (hd 0%nat i) t then 1 else 0)).
    rewrite get_tab; [cbn [hd]; lia|]. constructor; [exact Ht'|constructor; [lia|constructor]]. }
  split.
  - apply space_intro; try assumption.
    + exists 1%nat. split; [reflexivity|]. pose proof (gm_ae1 _ _ G). lia.
    + intros k Hk t' x. pose proof (gm_mps _ _ G k Hk).
      destruct (Z.le_gt_cases (occ c t' x) 0) as [H1|H1]; [lia|].
      assert (Lx : List.length x = 1%nat) by (rewrite <- N1; apply (occ_length c t'); [lia|simpl; lia]).
      rewrite O by exact Lx. destruct (_ && _); lia.
    + intros t' Ht'. pose proof (gm_pe _ _ G t' Ht'). split; [lia|]. intros x y Hx Hy.
      assert (Lx : List.length x = 1%nat) by (rewrite <- N1; apply (occ_length c t'); [lia|simpl; lia]).
      assert (Ly : List.length y = 1%nat) by (rewrite <- N1; apply (occ_length c t'); [lia|simpl; lia]).
      rewrite O in Hx, Hy by assumption.
      destruct (Nat.eqb t' t && eqlZ x [0]) eqn:E1; [|lia]. destruct (Nat.eqb t' t && eqlZ y [0]) eqn:E2; [|lia].
      apply andb_true_iff in E1, E2. destruct E1 as [_ E1]. destruct E2 as [_ E2]. apply eqlZ_eq in E1, E2. subst. simpl. lia.
    + intros t' Ht'. rewrite TTy by exact Ht'. pose proof (gm_pn _ _ G t' Ht'). destruct (Nat.eqb t' t); lia.
  - rewrite total_types by (apply valid_wf in V; auto || (simpl; lia)). rewrite N2.
    rewrite sumZ_map_ext with (g := fun t' => if Nat.eqb t' t then 1 else 0).
    + clear -Ht. assert (H : forall n k, (k <= t < k + n)%nat -> sumZ (map (fun t' => if Nat.eqb t' t then 1 else 0) (seq k n)) = 1).
      { induction n; intros k Hk; [lia|]. simpl seq. cbn [map].
        change (sumZ (?x :: ?l)) with (x + sumZ l). destruct (Nat.eqb k t) eqn:E.
        - apply Nat.eqb_eq in E. subst k. rewrite sumZ_map_zero; [lia|].
          intros x Hx. apply in_seq in Hx. destruct (Nat.eqb x t) eqn:E2; [apply Nat.eqb_eq in E2; lia|reflexivity].
        - rewrite IHn by (apply Nat.eqb_neq in E; lia). lia. }
      apply H. lia.
    + intros t' Hs. apply in_seq in Hs. apply TTy. lia.
Qed.

(** The Green's function occurs in some equation. *)
Lemma green_reached : exists b t, space m ae b /\ In t (gen_terms b) /\ phonon_free (cfg (t_cfg t)).
Proof.
  destruct (gm_minus _ _ G) as [h [Hh Hd]]. pose proof (gm_index _ _ G h Hh) as Ht.
  destruct (single_in_space (ht_index h) Ht) as [Sb T1].
  set (b := single_phonon (m_ntypes m) 1 (ht_index h)) in *.
  assert (Hi : inr (tl (shp b)) [0%nat]) by (constructor; [lia|constructor]).
  destruct (annih_term b h [0%nat] Sb Hh Hi) as [[O E]|[Hn [t [E [TF [FL [TB SP]]]]]]].
  - exfalso. simpl in O. unfold b in O. rewrite single_phonon_occ in O by (auto; reflexivity).
    rewrite Nat.eqb_refl in O. discriminate.
  - exists b, t. split; [exact Sb|]. split.
    + unfold gen_terms. apply in_flat_map. exists h. split; [exact Hh|]. apply In_h_rhs; try assumption.
      left. split; [exact Hd|]. exists [0%nat]. split; assumption.
    + destruct TF as [s [Vb _]]. apply valid_total_free; [exact Vb|lia].
Qed.

End OneD.
