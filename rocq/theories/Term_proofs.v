(** Lemmas on terms: what annihilation and creation terms contain. *)
From Coq Require Import String ZArith List Bool Lia.
From Verif Require Import Base NdArray NdArray_proofs Config Spec Spec_ops Config_proofs Modify_proofs Legal_proofs
  Model Space Spec_space Space_proofs Render Render_proofs Term Equation Spec_engine.
Import ListNotations.
Open Scope list_scope.
Open Scope Z_scope.

Lemma length_dbl : forall x, List.length (dbl x) = List.length x.
Proof. intros. apply map_length. Qed.

Lemma dbl_oppv : forall x, dbl (oppv x) = oppv (dbl x).
Proof. intros. unfold dbl, oppv. rewrite !map_map. apply map_ext. intros. lia. Qed.

Lemma dbl_zerov : forall n, dbl (zerov n) = zerov n.
Proof. intros n. unfold dbl, zerov. induction n; simpl in *; [reflexivity|f_equal; exact IHn]. Qed.

Lemma addv_zerov_l : forall a n, List.length a = n -> addv (zerov n) a = a.
Proof.
  intros a n H. rewrite addv_comm by (rewrite length_zerov; lia). apply addv_zerov. exact H.
Qed.

Lemma v2_ivec : forall l, v2 (ivec l) = dbl l. Proof. reflexivity. Qed.
Lemma isf_ivec : forall l, isf (ivec l) = false. Proof. reflexivity. Qed.

Lemma vadd_ip_int : forall a l, List.length (v2 a) = List.length l ->
  vadd_ip a (ivec l) = Ok (mkVec (isf a) (addv (v2 a) (dbl l))).
Proof.
  intros a l H. unfold vadd_ip. rewrite isf_ivec, andb_false_r, v2_ivec, length_dbl, H, Nat.eqb_refl. reflexivity.
Qed.

Lemma vadd_shift_spec : forall a s, List.length (shift_vec (List.length (v2 a)) s) = List.length (v2 a) ->
  vadd_shift a s = Ok (mkVec (isf a) (addv (v2 a) (dbl (shift_vec (List.length (v2 a)) s)))).
Proof. intros a [z|v] H; simpl in *; apply vadd_ip_int; lia. Qed.

Lemma shift_vec_neg : forall n s, shift_vec n (neg_shift s) = oppv (shift_vec n s).
Proof.
  intros n [z|v]; [|reflexivity]. simpl. unfold oppv. rewrite <- (map_map (fun _:Z => z) Z.opp (repeat 0 n)) || idtac.
  induction n; simpl; [reflexivity|]. f_equal; auto.
Qed.

Lemma checked_ok : forall c v, List.length (v2 v) = ndim (cfg c) -> checked c v = Ok v.
Proof. intros c v H. unfold checked, n_spatial. fold (ndim (cfg c)). rewrite H, Nat.eqb_refl. reflexivity. Qed.

Lemma length_total_per_type : forall a, List.length (total_phonons_per_type a) = ntypes a.
Proof. intros. unfold total_phonons_per_type. rewrite map_length, seq_length. reflexivity. Qed.

Lemma combine_seq_map : forall {A} (f : nat -> A) n k,
  combine (seq k n) (map f (seq k n)) = map (fun i => (i, f i)) (seq k n).
Proof. induction n; intros k; simpl; [reflexivity|]. rewrite IHn. reflexivity. Qed.

Lemma nth_error_map_seq : forall {A} (f : nat -> A) n t, (t < n)%nat ->
  nth_error (map f (seq 0 n)) t = Some (f t).
Proof.
  intros A f n t H. rewrite nth_error_map.
  rewrite (nth_error_nth' (seq 0 n) 0%nat) by (rewrite seq_length; exact H).
  rewrite seq_nth by exact H. reflexivity.
Qed.

Lemma freq_shift_spec : forall {T} (freqs : list T) a, (ntypes a <= List.length freqs)%nat ->
  exists l, freq_shift freqs a = Ok l /\ energy_of freqs a l.
Proof.
  intros T freqs a H. unfold freq_shift.
  unfold total_phonons_per_type. fold (ntypes a). rewrite combine_seq_map.
  destruct freqs as [|f0 fr] eqn:Ef.
  { simpl in H. replace (ntypes a) with 0%nat by lia. simpl.
    exists []. split; [reflexivity|]. split; simpl; [lia|]. intros; lia. }
  rewrite <- Ef in *.
  exists (map (fun t => (nth t freqs f0, total_type a t)) (seq 0 (ntypes a))). split.
  - rewrite mapM_ok with (g := fun p => (nth (fst p) freqs f0, snd p)).
    + rewrite map_map. reflexivity.
    + intros p Hp. apply in_map_iff in Hp. destruct Hp as [t [<- Ht]]. apply in_seq in Ht. simpl.
      rewrite (nth_error_nth' freqs f0) by lia. reflexivity.
  - split; [rewrite map_length, seq_length; reflexivity|].
    intros t Ht. exists (nth t freqs f0). split; [apply nth_error_nth'; lia|].
    rewrite nth_error_map_seq by exact Ht. reflexivity.
Qed.

Lemma init_ok : forall a, valid_cloud a -> config_init a 1 0 = Ok (mkConfig a 1 0).
Proof. intros a V. destruct (config_init_spec a 1 0 (valid_wf a V)) as [_ [H _]]. auto. Qed.

Lemma nonindex_spec : forall {T} kd a (h : hterm T) freqs mult, valid_cloud a ->
  List.length (v2 (ht_phi h)) = ndim a -> List.length (v2 (ht_psi h)) = ndim a ->
  (ntypes a <= List.length freqs)%nat ->
  exists fs, energy_of freqs a fs /\
    nonindex_term kd a h freqs mult =
    Ok (mkTerm kd (mkConfig a 1 0) (Some h) (Some (ht_coupling h, mult)) (mkVec true (zerov (ndim a)))
          (Some (ht_phi h)) (Some (mkVec (isf (ht_psi h) || isf (ht_phi h)) (subv (v2 (ht_psi h)) (v2 (ht_phi h))))) fs).
Proof.
  intros T kd a h freqs mult V Hphi Hpsi Hf.
  destruct (freq_shift_spec freqs a Hf) as [fs [E Hfs]]. exists fs. split; [exact Hfs|].
  unfold nonindex_term. rewrite (init_ok a V). cbn [bind].
  rewrite checked_ok by exact Hphi. cbn [bind].
  unfold vsub. rewrite Hphi, Hpsi, Nat.eqb_refl. cbn [bind].
  rewrite checked_ok by (simpl; rewrite length_subv; lia). cbn [bind].
  rewrite E. reflexivity.
Qed.

(** The state of a term after [step_], before the Green simplification. *)
Definition stepped {T} (kd : kind) (a : nd) (h : hterm T) (x s : list Z) (mult : Z) fs (b : nd) (fl : bool) : term T :=
  mkTerm kd (mkConfig b 1 1) (Some h) (Some (ht_coupling h, mult))
    (mkVec fl (oppv (dbl s)))
    (Some (mkVec (isf (ht_phi h)) (addv (subv (v2 (ht_phi h)) (dbl x)) (dbl s))))
    (Some (mkVec (isf (ht_psi h) || isf (ht_phi h)) (addv (subv (v2 (ht_psi h)) (v2 (ht_phi h))) (dbl x)))) fs.

Lemma annih_step : forall {T} a (h : hterm T) freqs x, valid_cloud a ->
  List.length (v2 (ht_phi h)) = ndim a -> List.length (v2 (ht_psi h)) = ndim a ->
  (ntypes a <= List.length freqs)%nat -> 0 < occ a (ht_index h) x ->
  exists fs b s, energy_of freqs a fs /\
    (forall mult, exists t, nonindex_term KAnnih a h freqs mult = Ok t /\
       step t x = Ok (stepped KAnnih a h x s mult fs b true)) /\
    valid_cloud b /\ modified_by a b s (ht_index h) x (-1) /\ total b = total a - 1 /\
    Forall (fun z => 0 <= z) s /\ (total b = 0 -> s = zerov (ndim a)).
Proof.
  intros T a h freqs x V Hphi Hpsi Hf Ho.
  destruct (remove_spec a 1 0 (ht_index h) x V ltac:(lia) Ho) as [b [s [E [Vb [M [Tb [Ps Z0]]]]]]].
  assert (Hx : List.length x = ndim a).
  { apply (occ_length a (ht_index h)); [lia|]. pose proof (valid_rank a V). lia. }
  destruct (freq_shift_spec freqs a Hf) as [fs [Efs Hfs]].
  exists fs, b, (shift_vec (ndim a) s). split; [exact Hfs|]. split.
  - intros mult. destruct (nonindex_spec KAnnih a h freqs mult V Hphi Hpsi Hf) as [fs' [Hfs' E']].
    assert (fs' = fs).
    { unfold nonindex_term in E'. rewrite (init_ok a V) in E'. cbn [bind] in E'.
      rewrite checked_ok in E' by exact Hphi. cbn [bind] in E'.
      unfold vsub in E'. rewrite Hphi, Hpsi, Nat.eqb_refl in E'. cbn [bind] in E'.
      rewrite checked_ok in E' by (simpl; rewrite length_subv; lia). cbn [bind] in E'.
      rewrite Efs in E'. cbn [bind] in E'. congruence. }
    subst fs'. eexists. split; [exact E'|].
    pose proof M as M0. destruct M as [M1 [M2 [M3 M4]]].
    assert (Nb : ndim b = ndim a) by (unfold ndim; lia).
    unfold step. cbn [t_h t_f t_g t_cfg].
    rewrite vadd_ip_int by (simpl; rewrite length_subv; lia). cbn [bind isf v2].
    rewrite checked_ok by (simpl; rewrite length_addv; rewrite length_subv; rewrite ?length_dbl; lia). cbn [bind].
    rewrite vadd_ip_int by (rewrite length_oppv; lia). cbn [bind].
    rewrite checked_ok by (simpl; rewrite length_addv; rewrite ?length_dbl, ?length_oppv; lia). cbn [bind].
    unfold modify. cbn [t_kind t_cfg t_exp t_h t_const t_fshift]. rewrite E. cbn [bind].
    rewrite vadd_shift_spec by (simpl; rewrite length_zerov, shift_vec_neg, length_oppv; exact M3).
    cbn [bind v2 isf]. rewrite length_zerov, shift_vec_neg, dbl_oppv.
    rewrite addv_zerov_l by (rewrite length_oppv, length_dbl; exact M3).
    rewrite checked_ok by (simpl; rewrite length_oppv, length_dbl; lia). cbn [bind].
    assert (L1 : List.length (addv (v2 (ht_phi h)) (dbl (oppv x))) = ndim a)
      by (rewrite length_addv; rewrite ?length_dbl, ?length_oppv; lia).
    rewrite vadd_shift_spec by (cbn [v2]; rewrite L1; exact M3).
    cbn [bind v2 isf]. rewrite L1.
    rewrite checked_ok by (simpl; rewrite length_addv; rewrite ?length_dbl; lia). cbn [bind].
    unfold stepped, subv. rewrite dbl_oppv. reflexivity.
  - split; [exact Vb|]. split; [exact M|]. split; [exact Tb|]. split; [exact Ps|].
    intros Hz. apply Z0. exact Hz.
Qed.

Lemma creat_step : forall {T} a (h : hterm T) freqs x, valid_cloud a -> ~ phonon_free a ->
  List.length (v2 (ht_phi h)) = ndim a -> List.length (v2 (ht_psi h)) = ndim a ->
  (ntypes a <= List.length freqs)%nat -> (ht_index h < ntypes a)%nat -> List.length x = ndim a ->
  exists fs b s, energy_of freqs a fs /\
    (forall mult, exists t, nonindex_term KCreat a h freqs mult = Ok t /\
       step t x = Ok (stepped KCreat a h x s mult fs b false)) /\
    valid_cloud b /\ modified_by a b s (ht_index h) x 1 /\ total b = total a + 1 /\
    s = map (fun z => Z.min z 0) x /\
    (forall d, (d < ndim a)%nat -> Z.of_nat (nth (S d) (shp b) 0%nat) =
       Z.max (Z.of_nat (nth (S d) (shp a) 0%nat)) (nth d x 0 + 1) - Z.min (nth d x 0) 0).
Proof.
  intros T a h freqs x V NF Hphi Hpsi Hf Ht Hx.
  destruct (add_spec a 1 0 (ht_index h) x V NF ltac:(lia) Ht Hx) as [b [s [E [Vb [M [Tb [Ps Sh]]]]]]].
  destruct (freq_shift_spec freqs a Hf) as [fs [Efs Hfs]].
  assert (Es : map (fun z => Z.min z 0) x = oppv s).
  { rewrite Ps. unfold oppv. rewrite map_map. apply map_ext. intros; lia. }
  exists fs, b, (oppv s). split; [exact Hfs|]. split.
  - intros mult. destruct (nonindex_spec KCreat a h freqs mult V Hphi Hpsi Hf) as [fs' [Hfs' E']].
    assert (fs' = fs).
    { unfold nonindex_term in E'. rewrite (init_ok a V) in E'. cbn [bind] in E'.
      rewrite checked_ok in E' by exact Hphi. cbn [bind] in E'.
      unfold vsub in E'. rewrite Hphi, Hpsi, Nat.eqb_refl in E'. cbn [bind] in E'.
      rewrite checked_ok in E' by (simpl; rewrite length_subv; lia). cbn [bind] in E'.
      rewrite Efs in E'. cbn [bind] in E'. congruence. }
    subst fs'. eexists. split; [exact E'|].
    pose proof M as M0. destruct M as [M1 [M2 [M3 M4]]].
    assert (Nb : ndim b = ndim a) by (unfold ndim; lia).
    rewrite length_oppv in M3.
    unfold step. cbn [t_h t_f t_g t_cfg].
    rewrite vadd_ip_int by (simpl; rewrite length_subv; lia). cbn [bind isf v2].
    rewrite checked_ok by (simpl; rewrite length_addv; rewrite length_subv; rewrite ?length_dbl; lia). cbn [bind].
    rewrite vadd_ip_int by (rewrite length_oppv; lia). cbn [bind].
    rewrite checked_ok by (simpl; rewrite length_addv; rewrite ?length_dbl, ?length_oppv; lia). cbn [bind].
    unfold modify. cbn [t_kind t_cfg t_exp t_h t_const t_fshift]. rewrite E. cbn [bind].
    rewrite checked_ok by (rewrite v2_ivec, length_dbl; simpl; lia). cbn [bind].
    assert (L1 : List.length (addv (v2 (ht_phi h)) (dbl (oppv x))) = ndim a)
      by (rewrite length_addv; rewrite ?length_dbl, ?length_oppv; lia).
    rewrite vadd_shift_spec by (cbn [v2]; rewrite L1, shift_vec_neg, length_oppv; exact M3).
    cbn [bind v2 isf]. rewrite L1. rewrite shift_vec_neg. cbn [shift_vec].
    rewrite checked_ok by (simpl; rewrite length_addv; rewrite ?length_dbl, ?length_oppv; lia). cbn [bind].
    unfold stepped, subv. rewrite !dbl_oppv, oppv_oppv. reflexivity.
  - split; [exact Vb|]. split; [exact M|]. split; [exact Tb|]. split; [symmetry; exact Es|]. exact Sh.
Qed.

Lemma green_id : forall b, phonon_config_id b = "{G}"%string <-> total b = 0.
Proof.
  intros b. unfold phonon_config_id, config_id. destruct (total b =? 0) eqn:E.
  - split; [intros _; lia|reflexivity].
  - split; [|lia]. unfold str_list. simpl. discriminate.
Qed.

Lemma existsb_nz_false : forall l, existsb (fun z => negb (z =? 0)) l = false -> l = zerov (List.length l).
Proof.
  induction l as [|z r IH]; intros H; [reflexivity|]. simpl in *.
  apply orb_false_iff in H. destruct H as [H1 H2]. unfold zerov. simpl. f_equal; [lia|]. apply IH. exact H2.
Qed.

(** What stays the same in the Green simplification. *)
Definition term_flags {T} (kd : kind) (h : hterm T) (t : term T) : Prop :=
  t_kind t = kd /\ t_h t = Some h /\
  (exists f, t_f t = Some f /\ isf f = isf (ht_phi h)) /\
  (exists g, t_g t = Some g /\ isf g = isf (ht_psi h) || isf (ht_phi h)).

Lemma finish_spec : forall {T} (m : model T) kd a h x s mult fs b fl e,
  valid_cloud a -> valid_cloud b -> modified_by a b s (ht_index h) x e ->
  List.length (v2 (ht_phi h)) = ndim a -> List.length (v2 (ht_psi h)) = ndim a -> List.length x = ndim a ->
  energy_of (h_freqs (m_ham m)) a fs -> (ntypes a <= List.length (m_pe m))%nat ->
  (total b = 0 -> s = zerov (ndim a) /\ fl = true) ->
  exists t ok, finish m (stepped kd a h x s mult fs b fl) = Ok (if ok : bool then [t] else []) /\
    term_for m a h x e mult t /\ term_flags kd h t /\ cfg (t_cfg t) = b /\
    (ok = true <-> legal_spec b (m_mps m) (Some (m_pe m)) None true).
Proof.
  intros T m kd a h x s mult fs b fl e V Vb M Hphi Hpsi Hx Hfs Hpe H0.
  assert (Rb := valid_rank b Vb). assert (Wb := valid_wf b Vb). assert (Nb := valid_nonneg b Vb).
  pose proof M as [M1 [M2 [M3 M4]]].
  assert (LS : exists t, simplify_green (stepped kd a h x s mult fs b fl) = Ok t /\
      term_for m a h x e mult t /\ term_flags kd h t /\ cfg (t_cfg t) = b).
  { unfold simplify_green. cbn [t_cfg stepped cfg].
    destruct (String.eqb (phonon_config_id b) "{G}") eqn:EG.
    - apply String.eqb_eq in EG. apply green_id in EG.
      assert (FB : phonon_free b) by (apply valid_total_free; assumption).
      destruct (H0 EG) as [Es Ef]. subst s fl. cbn [t_f stepped v2].
      destruct (existsb _ _) eqn:EX.
      + unfold vadd_ip. cbn [t_exp stepped isf v2 negb andb].
        rewrite dbl_zerov. replace (oppv (zerov (ndim a))) with (zerov (ndim a)).
        2:{ unfold zerov, oppv. rewrite <- (map_id (repeat 0 (ndim a))) at 1. clear. induction (ndim a); simpl; [reflexivity|f_equal; assumption]. }
        rewrite addv_zerov by (rewrite length_subv; rewrite ?length_dbl; lia).
        rewrite length_zerov, length_subv by (rewrite ?length_dbl; lia). rewrite Hphi, Nat.eqb_refl. cbn [bind].
        eexists. split; [reflexivity|]. split; [|split; [|reflexivity]].
        * exists (zerov (ndim a)). cbn. split; [exact Vb|]. split; [exact M|]. split; [reflexivity|]. split; [exact Hfs|].
          split; [eexists; split; reflexivity|]. eexists. split; [reflexivity|]. right. split; [exact FB|].
          cbn. split; [reflexivity|].
          rewrite addv_zerov_l by (rewrite length_subv; rewrite ?length_dbl; lia). reflexivity.
        * unfold term_flags. cbn. split; [reflexivity|]. split; [reflexivity|]. split; eexists; split; reflexivity.
      + eexists. split; [reflexivity|]. split; [|split; [|reflexivity]].
        * apply existsb_nz_false in EX. rewrite dbl_zerov in EX.
          rewrite length_addv in EX by (rewrite length_subv; rewrite ?length_dbl, ?length_zerov; lia).
          rewrite length_subv in EX by (rewrite ?length_dbl; lia).
          exists (zerov (ndim a)). cbn. split; [exact Vb|]. split; [exact M|]. split; [reflexivity|]. split; [exact Hfs|].
          split; [eexists; split; reflexivity|]. eexists. split; [reflexivity|]. right. split; [exact FB|].
          cbn. rewrite dbl_zerov. rewrite EX, Hphi. split; [reflexivity|].
          rewrite addv_zerov in EX by (rewrite length_subv; rewrite ?length_dbl; lia). rewrite EX, Hphi.
          unfold zerov, oppv. clear. induction (ndim a); simpl; [reflexivity|f_equal; assumption].
        * unfold term_flags. cbn. split; [reflexivity|]. split; [reflexivity|]. split; eexists; split; reflexivity.
    - assert (NZ : ~ phonon_free b).
      { intros F. apply valid_total_free in F; [|exact Vb]. apply green_id in F. rewrite F in EG. discriminate. }
      eexists. split; [reflexivity|]. split; [|split; [|reflexivity]].
      + exists s. cbn. split; [exact Vb|]. split; [exact M|]. split; [reflexivity|]. split; [exact Hfs|].
        split; [eexists; split; reflexivity|]. eexists. split; [reflexivity|]. left. split; [exact NZ|].
        split; reflexivity.
      + unfold term_flags. cbn. split; [reflexivity|]. split; [reflexivity|]. split; eexists; split; reflexivity. }
  destruct LS as [t [ES [TF [FL CF]]]]. exists t.
  assert (LB : exists ok, config_legal b (m_mps m) (Some (m_pe m)) None true = Ok ok /\
            (ok = true <-> legal_spec b (m_mps m) (Some (m_pe m)) None true)).
  { destruct (Z.eq_dec (total b) 0) as [Z0|NZ].
    - exists true. split; [unfold config_legal; rewrite Z0; reflexivity|].
      split; [|reflexivity]. intros _. left. split; [reflexivity|]. apply valid_total_free; assumption.
    - apply config_legal_spec.
      + exact Wb.
      + assert (P : 0 < total b) by (pose proof (total_nonneg b Wb Nb); lia).
        pose proof (valid_tight b Vb P) as TT. apply Forall_forall. intros d Hd.
        apply (In_nth _ _ 0%nat) in Hd. destruct Hd as [k [Hk <-]]. rewrite length_tl_shp in Hk.
        rewrite nth_tl_shp. destruct (TT k Hk) as [O1 _]. apply occupied_slab_range in O1; [lia|exact Hk].
      + intros _. split; [exact Nb|lia].
      + intros e0 He. injection He as <-. rewrite M2. exact Hpe.
      + discriminate. }
  destruct LB as [ok [EL HL]]. exists ok. split; [|split; [exact TF|split; [exact FL|split; [exact CF|exact HL]]]].
  unfold finish. rewrite ES. cbn [bind]. rewrite CF.
  rewrite (proj2 (validate_iff b Wb) Vb). cbn [bind]. rewrite EL. reflexivity.
Qed.

Lemma annih_at_spec : forall {T} (m : model T) a h i, valid_cloud a ->
  List.length (v2 (ht_phi h)) = ndim a -> List.length (v2 (ht_psi h)) = ndim a ->
  (ntypes a <= List.length (h_freqs (m_ham m)))%nat -> (ntypes a <= List.length (m_pe m))%nat ->
  (ht_index h < ntypes a)%nat -> inr (tl (shp a)) i ->
  let n := occ a (ht_index h) (map Z.of_nat i) in
  (n = 0 /\ annih_at m a h i = Ok []) \/
  (0 < n /\ exists t ok, annih_at m a h i = Ok (if ok : bool then [t] else []) /\
     term_for m a h (map Z.of_nat i) (-1) n t /\ term_flags KAnnih h t /\
     total (cfg (t_cfg t)) = total a - 1 /\
     (ok = true <-> legal_spec (cfg (t_cfg t)) (m_mps m) (Some (m_pe m)) None true)).
Proof.
  intros T m a h i V Hphi Hpsi Hf Hpe Ht Hi n.
  assert (Rb := valid_rank a V).
  assert (En : get a (ht_index h :: i) = n) by (unfold n; rewrite occ_of; [reflexivity|lia|exact Ht|exact Hi]).
  assert (Hn : 0 <= n) by (unfold n; apply (proj1 (occ_nonneg a ltac:(lia)) (valid_nonneg a V))).
  unfold annih_at. rewrite En. destruct (n =? 0) eqn:E0; [left; split; [lia|reflexivity]|right].
  split; [lia|].
  assert (P : 0 < occ a (ht_index h) (map Z.of_nat i)) by (fold n; lia).
  destruct (annih_step a h (h_freqs (m_ham m)) (map Z.of_nat i) V Hphi Hpsi Hf P)
    as [fs [b [s [Hfs [Hst [Vb [M [Tb [Ps Z0]]]]]]]]].
  destruct (Hst n) as [t0 [E1 E2]]. rewrite E1. cbn [bind]. rewrite E2. cbn [bind].
  assert (Hx : List.length (map Z.of_nat i) = ndim a).
  { rewrite map_length, (inr_length _ _ Hi). apply length_tl_shp. }
  destruct (finish_spec m KAnnih a h (map Z.of_nat i) s n fs b true (-1) V Vb M Hphi Hpsi Hx Hfs Hpe) as [t [ok H]].
  { intros Hz. split; [apply Z0; exact Hz|reflexivity]. }
  exists t, ok. destruct H as [H1 [H2 [H3 [H4 H5]]]]. split; [exact H1|]. split; [exact H2|]. split; [exact H3|].
  rewrite H4. split; [exact Tb|exact H5].
Qed.

Lemma creat_at_spec : forall {T} (m : model T) a h x, valid_cloud a -> ~ phonon_free a ->
  List.length (v2 (ht_phi h)) = ndim a -> List.length (v2 (ht_psi h)) = ndim a ->
  (ntypes a <= List.length (h_freqs (m_ham m)))%nat -> (ntypes a <= List.length (m_pe m))%nat ->
  (ht_index h < ntypes a)%nat -> List.length x = ndim a ->
  exists t ok, creat_at m a h x = Ok (if ok : bool then [t] else []) /\
     term_for m a h x 1 1 t /\ term_flags KCreat h t /\
     total (cfg (t_cfg t)) = total a + 1 /\
     (forall d, (d < ndim a)%nat -> Z.of_nat (nth (S d) (shp (cfg (t_cfg t))) 0%nat) =
       Z.max (Z.of_nat (nth (S d) (shp a) 0%nat)) (nth d x 0 + 1) - Z.min (nth d x 0) 0) /\
     (ok = true <-> legal_spec (cfg (t_cfg t)) (m_mps m) (Some (m_pe m)) None true).
Proof.
  intros T m a h x V NF Hphi Hpsi Hf Hpe Ht Hx.
  destruct (creat_step a h (h_freqs (m_ham m)) x V NF Hphi Hpsi Hf Ht Hx)
    as [fs [b [s [Hfs [Hst [Vb [M [Tb [Ps Sh]]]]]]]]].
  destruct (Hst 1) as [t0 [E1 E2]]. unfold creat_at. rewrite E1. cbn [bind]. rewrite E2. cbn [bind].
  destruct (finish_spec m KCreat a h x s 1 fs b false 1 V Vb M Hphi Hpsi Hx Hfs Hpe) as [t [ok H]].
  { intros Hz. pose proof (total_nonneg a (valid_wf a V) (valid_nonneg a V)). lia. }
  exists t, ok. destruct H as [H1 [H2 [H3 [H4 H5]]]]. split; [exact H1|]. split; [exact H2|]. split; [exact H3|].
  rewrite H4. split; [exact Tb|]. split; [exact Sh|exact H5].
Qed.

(** The equation of motion of G. *)
Lemma single_phonon_occ : forall nt d t t' x, (t < nt)%nat -> List.length x = d ->
  occ (single_phonon nt d t) t' x = if Nat.eqb t' t && eqlZ x (zerov d) then 1 else 0.
Proof.
  intros nt d t t' x Ht Hx. unfold occ, single_phonon. rewrite at_tab. cbn [inb].
  assert (EI : inb (repeat 1%nat d) x = eqlZ x (zerov d)).
  { revert d Hx. induction x as [|y r IH]; intros [|d] Hx; try discriminate; [reflexivity|].
    simpl in Hx. cbn [repeat inb zerov eqlZ]. rewrite (IH d) by lia. unfold zerov. f_equal. lia. }
  rewrite EI. cbn [map hd]. rewrite Nat2Z.id.
  destruct (Nat.eqb t' t) eqn:E; destruct (eqlZ x (zerov d)) eqn:E2; cbn [andb]; rewrite ?andb_false_r; try reflexivity.
  - apply Nat.eqb_eq in E. subst t'. replace (0 <=? Z.of_nat t) with true by lia.
    replace (Z.of_nat t <? Z.of_nat nt) with true by lia. reflexivity.
  - destruct (_ && _); reflexivity.
Qed.

Lemma single_phonon_valid : forall nt d t, (t < nt)%nat -> (1 <= d)%nat ->
  valid_cloud (single_phonon nt d t) /\ ~ phonon_free (single_phonon nt d t) /\
  ndim (single_phonon nt d t) = d /\ ntypes (single_phonon nt d t) = nt.
Proof.
  intros nt d t Ht Hd.
  assert (N1 : ndim (single_phonon nt d t) = d) by (unfold ndim, single_phonon; simpl; apply repeat_length).
  assert (NF : 0 < occ (single_phonon nt d t) t (zerov d)).
  { rewrite single_phonon_occ by (rewrite ?length_zerov; auto). rewrite Nat.eqb_refl.
    rewrite (proj2 (eqlZ_eq _ _) eq_refl). reflexivity. }
  split; [|split; [|split; [exact N1|reflexivity]]].
  - split; [apply wf_tab|]. split; [simpl; rewrite repeat_length; lia|]. split.
    + intros t' x. unfold occ, single_phonon. rewrite at_tab. destruct (inb _ _); [|lia]. destruct (Nat.eqb _ _); lia.
    + right. intros k Hk. rewrite N1 in Hk.
      assert (EL : nth (S k) (shp (single_phonon nt d t)) 0%nat = 1%nat).
      { simpl. revert k Hk. clear. induction d; intros k Hk; [lia|]. destruct k; simpl; [reflexivity|apply IHd; lia]. }
      rewrite EL. cbn [Z.of_nat]. assert (occupied_slab (single_phonon nt d t) k 0).
      { exists t, (zerov d). split; [rewrite N1; apply length_zerov|]. split; [apply nth_zerov|exact NF]. }
      split; assumption.
  - intros F. specialize (F t (zerov d)). lia.
Qed.

Lemma green_term_spec : forall {T} (m : model T) h, (1 <= h_dim (m_ham m))%nat ->
  (ht_index h < m_ntypes m)%nat ->
  List.length (v2 (ht_psi h)) = List.length (v2 (ht_phi h)) ->
  (ht_dag h = Minus /\ green_term m h = Ok []) \/
  (ht_dag h = Plus /\ exists t, green_term m h = Ok [t] /\ eom_for m h t /\
     cfg (t_cfg t) = single_phonon (m_ntypes m) (h_dim (m_ham m)) (ht_index h)).
Proof.
  intros T m h Hd Ht HL. unfold green_term. destruct (ht_dag h); [right|left; split; reflexivity].
  split; [reflexivity|]. destruct (single_phonon_valid (m_ntypes m) (h_dim (m_ham m)) (ht_index h) Ht Hd) as [V [NF [N1 N2]]].
  unfold guard. rewrite (proj2 (Nat.ltb_lt _ _) Ht). cbn [bind]. unfold eom_term. rewrite init_ok by exact V. cbn [bind].
  unfold vsub. rewrite HL, Nat.eqb_refl. cbn [bind]. eexists. split; [reflexivity|]. split; [|reflexivity].
  unfold eom_for. cbn [t_kind t_cfg cfg t_const t_exp t_f v2]. split; [reflexivity|]. split; [exact V|].
  split; [reflexivity|]. split; [intros; apply single_phonon_occ; auto|]. repeat split; reflexivity.
Qed.
