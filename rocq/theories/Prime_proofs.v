(** [System.__init__] succeeds on good models; structure of the result. *)
From Coq Require Import String ZArith List Bool Lia Permutation.
From Verif Require Import Base NdArray NdArray_proofs Config Spec Spec_ops Config_proofs Modify_proofs Legal_proofs
  Model Space Spec_space Space_proofs Count_proofs Render Render_proofs Term Equation System Spec_engine
  Term_proofs Equation_proofs System_proofs.
Import ListNotations.
Open Scope list_scope.
Open Scope Z_scope.

Section Prime.
Context {T : Type}.
Variable m : model T.
Variable ae : Z.
Hypothesis G : good_model m ae.
Variable ord : string -> list vec -> list vec.
Hypothesis ord_perm : forall k l, Permutation (ord k l) l.

Definition idx (a : nd) : term T :=
  mkTerm KIndex (mkConfig a 1 0) None None (mkVec true (zerov (ndim a))) None None [].

Lemma index_term_ok : forall a, valid_cloud a -> index_term a = Ok (idx a).
Proof. intros a V. unfold index_term. rewrite init_ok by exact V. reflexivity. Qed.

Definition dict_of (ts : list (term T)) : sdict (list vec) :=
  match populate ts with Ok d => d | Err _ => [] end.

Lemma dict_of_spec : forall ts : list (term T), (forall t, In t ts -> t_f t <> None) ->
  populate ts = Ok (dict_of ts) /\ good_dict (dict_of ts) /\ forall k, val k (dict_of ts) = fs_of k ts.
Proof.
  intros ts H. destruct (populate_spec ts H) as [d [E [GD V]]]. unfold dict_of. rewrite E. auto.
Qed.

Definition geq (a : nd) : equation T := mkEq false (idx a) (gen_terms m ae a) (dict_of (gen_terms m ae a)).

Lemma gen_terms_f : forall a t, space m ae a -> In t (gen_terms m ae a) ->
  (exists f, t_f t = Some f /\ List.length (v2 f) = 1%nat) /\
  (t_kind t = KAnnih \/ t_kind t = KCreat) /\ exists g, t_g t = Some g /\ List.length (v2 g) = 1%nat.
Proof.
  intros a t Sa Ht. destruct (gen_term_sound m ae G a t Sa Ht) as [h [x [e [mult [kd [Hh [Lx [TF [FL [K _]]]]]]]]]].
  pose proof (gm_phi _ _ G h Hh) as Hphi. pose proof (gm_psi _ _ G h Hh) as Hpsi.
  destruct (space_unfold m ae a Sa) as [_ [_ [_ [_ [N1 _]]]]].
  destruct TF as [s [Vb [M [_ [_ [[g [Eg Vg]] [f [Ef HF]]]]]]]]. destruct FL as [Kd _].
  destruct M as [_ [_ [M3 _]]]. rewrite N1 in M3.
  split; [|split].
  - exists f. split; [exact Ef|]. destruct HF as [[_ [-> _]]|[_ [-> _]]].
    + rewrite length_addv; rewrite ?length_subv; rewrite ?length_dbl; lia.
    + rewrite length_zerov. exact N1.
  - rewrite Kd. exact K.
  - exists g. split; [exact Eg|]. rewrite Vg. rewrite length_addv; rewrite ?length_subv; rewrite ?length_dbl; lia.
Qed.

Lemma equation_from_ok : forall a, space m ae a -> equation_from m a = Ok (geq a).
Proof.
  intros a Sa. destruct (space_unfold m ae a Sa) as [V _]. unfold equation_from.
  rewrite index_term_ok by exact V. cbn [bind]. rewrite (initialize_spec m ae G a Sa). cbn [bind].
  fold (gen_terms m ae a).
  destruct (dict_of_spec (gen_terms m ae a)) as [E _].
  - intros t Ht. destruct (gen_terms_f a t Sa Ht) as [[f [E _]] _]. congruence.
  - rewrite E. reflexivity.
Qed.

(** The Green's function's equation. *)
Definition vac : nd := zeros [m_ntypes m; 1%nat].

Definition green_terms : list (term T) := flat_map (fun h => okl (green_term m h)) (h_terms (m_ham m)).

Definition green : equation T := mkEq true (idx vac) green_terms (dict_of green_terms).

Lemma vac_valid : valid_cloud vac /\ total vac = 0 /\ ndim vac = 1%nat.
Proof.
  assert (A : forall x, at_ vac x = 0) by (intros x; unfold vac, zeros; rewrite at_tab; destruct (inb _ _); reflexivity).
  split; [|split; [|reflexivity]].
  - split; [apply wf_tab|]. split; [simpl; lia|]. split; [intros; unfold occ; rewrite A; lia|].
    left. intros t x. apply A.
  - apply zero_total; [apply wf_tab|exact A].
Qed.

Lemma h_dim1 : h_dim (m_ham m) = 1%nat.
Proof. apply (gm_wf _ _ G). Qed.

Lemma green_terms_sound : forall t, In t green_terms -> exists h, In h (h_terms (m_ham m)) /\ ht_dag h = Plus /\
  eom_for m h t /\ green_term m h = Ok [t] /\
  cfg (t_cfg t) = single_phonon (m_ntypes m) 1 (ht_index h) /\ space m ae (cfg (t_cfg t)) /\ total (cfg (t_cfg t)) = 1.
Proof.
  intros t Ht. unfold green_terms in Ht. apply in_flat_map in Ht. destruct Ht as [h [Hh Ht]].
  pose proof (gm_index _ _ G h Hh) as Hi.
  destruct (green_term_spec m h) as [[D E]|[D [t' [E [EF C]]]]].
  - rewrite h_dim1. lia.
  - exact Hi.
  - rewrite (gm_phi _ _ G h Hh), (gm_psi _ _ G h Hh). reflexivity.
  - rewrite E in Ht. destruct Ht.
  - rewrite E in Ht. destruct Ht as [<-|[]]. exists h. rewrite h_dim1 in C.
    destruct (single_in_space m ae G (ht_index h) Hi) as [S1 S2].
    split; [exact Hh|]. split; [exact D|]. split; [exact EF|]. split; [exact E|]. split; [exact C|]. rewrite C. split; assumption.
Qed.

Lemma green_terms_complete : forall h, In h (h_terms (m_ham m)) -> ht_dag h = Plus ->
  exists t, In t green_terms /\ eom_for m h t /\ cfg (t_cfg t) = single_phonon (m_ntypes m) 1 (ht_index h).
Proof.
  intros h Hh D. pose proof (gm_index _ _ G h Hh) as Hi.
  destruct (green_term_spec m h) as [[D' E]|[_ [t' [E [EF C]]]]].
  - rewrite h_dim1. lia.
  - exact Hi.
  - rewrite (gm_phi _ _ G h Hh), (gm_psi _ _ G h Hh). reflexivity.
  - congruence.
  - exists t'. rewrite h_dim1 in C. split; [|split; assumption]. unfold green_terms. apply in_flat_map.
    exists h. split; [exact Hh|]. rewrite E. left. reflexivity.
Qed.

Lemma green_equation_ok : green_equation m = Ok green.
Proof.
  unfold green_equation. rewrite h_dim1. cbn [repeat]. fold vac. rewrite index_term_ok by apply vac_valid. cbn [bind].
  rewrite mapM_okl; cbn [bind].
  - rewrite concat_map. fold green_terms. destruct (dict_of_spec green_terms) as [E _].
    + intros t Ht. destruct (green_terms_sound t Ht) as [h [_ [_ [EF _]]]].
      unfold eom_for in EF. destruct EF as [_ [_ [_ [_ [_ [_ E]]]]]]. congruence.
    + rewrite E. reflexivity.
  - intros h Hh. pose proof (gm_index _ _ G h Hh) as Hi.
    destruct (green_term_spec m h) as [[D' E]|[_ [t' [E _]]]].
    + rewrite h_dim1. lia.
    + exact Hi.
    + rewrite (gm_phi _ _ G h Hh), (gm_psi _ _ G h Hh). reflexivity.
    + rewrite E. eexists; reflexivity.
    + rewrite E. eexists; reflexivity.
Qed.

Variable d : list (Z * list config).
Hypothesis Ed : generate_space m = Ok d.

Lemma d_spec : map fst d = range 1 (sumZ (m_pn m) + 1) /\
  forall n cs, In (n, cs) d -> exists l, cs = map (fun a => mkConfig a 1 0) l /\ NoDup l /\
    forall a, In a l <-> model_space m ae n a.
Proof.
  destruct (generate_space_spec m ae (gm_wf _ _ G) (gm_ae _ _ G)) as [d' [E [K H]]].
  rewrite Ed in E. injection E as <-. split; [exact K|].
  intros n cs Hn. assert (ND : NoDup (map fst d)) by (rewrite K; apply NoDup_range).
  assert (Rn : In n (range 1 (sumZ (m_pn m) + 1))) by (rewrite <- K; apply (in_map fst) in Hn; exact Hn).
  apply In_range in Rn. destruct (H n ltac:(lia)) as [l [A [B C]]].
  rewrite (assocZ_In d n cs ND Hn) in A. injection A as ->. exists l. auto.
Qed.

Lemma in_space_total : forall n a, model_space m ae n a -> space m ae a /\ total a = n.
Proof. intros n a H. pose proof H as [_ [_ [E _]]]. split; [|exact E]. unfold space. rewrite E. exact H. Qed.

Definition genl : list (Z * list (equation T)) :=
  map (fun kv => (fst kv, map (fun c => geq (cfg c)) (snd kv))) d ++ [(0, [green])].

Definition masterd : sdict (list vec) :=
  fold_left (fun acc e => append_master acc (e_fargs e)) (flat_map snd genl) [].

Lemma In_allg : forall e, In e (flat_map snd genl) <-> e = green \/ exists a, space m ae a /\ e = geq a.
Proof.
  intros e. unfold genl. rewrite flat_map_app, in_app_iff. cbn [flat_map snd app]. rewrite in_flat_map.
  destruct d_spec as [K D]. split.
  - intros [[kv [H1 H2]]|[<-|[]]]; [right|left; reflexivity].
    apply in_map_iff in H1. destruct H1 as [[n cs] [<- H1]]. cbn [snd] in H2. apply in_map_iff in H2.
    destruct H2 as [c [<- Hc]]. destruct (D n cs H1) as [l [-> [_ C]]]. apply in_map_iff in Hc.
    destruct Hc as [a [<- Ha]]. exists a. split; [|reflexivity]. apply C in Ha. apply in_space_total in Ha. apply Ha.
  - intros [->|[a [Sa ->]]]; [right; left; reflexivity|left].
    pose proof (space_bounds m ae (total a) a (gm_wf _ _ G) Sa) as B.
    assert (Hn : In (total a) (map fst d)) by (rewrite K; apply In_range; lia).
    apply in_map_iff in Hn. destruct Hn as [[n cs] [En Hn]]. cbn [fst] in En. subst n.
    destruct (D _ cs Hn) as [l [-> [_ C]]].
    exists (total a, map (fun c => geq (cfg c)) (map (fun a => mkConfig a 1 0) l)). split.
    + apply in_map_iff. exists (total a, map (fun a => mkConfig a 1 0) l). auto.
    + cbn [snd]. rewrite map_map. cbn [cfg]. apply in_map, C. exact Sa.
Qed.

Lemma e_fargs_good : forall e, In e (flat_map snd genl) -> good_dict (e_fargs e) /\
  forall k, val k (e_fargs e) = fs_of k (e_terms e).
Proof.
  intros e He. apply In_allg in He. destruct He as [->|[a [Sa ->]]]; cbn [e_fargs e_terms green geq].
  - apply dict_of_spec. intros t Ht. destruct (green_terms_sound t Ht) as [h [_ [_ [EF _]]]].
    unfold eom_for in EF. destruct EF as [_ [_ [_ [_ [_ [_ E]]]]]]. congruence.
  - apply dict_of_spec. intros t Ht. destruct (gen_terms_f a t Sa Ht) as [[f [E _]] _]. congruence.
Qed.

Lemma master_acc : forall es d0, (forall e, In e es -> good_dict (e_fargs e) /\
    forall k, val k (e_fargs e) = fs_of k (e_terms (T:=T) e)) -> good_dict d0 ->
  good_dict (fold_left (fun acc e => append_master acc (e_fargs e)) es d0) /\
  forall k, val k (fold_left (fun acc e => append_master acc (e_fargs e)) es d0)
    = val k d0 ++ flat_map (fun e => fs_of k (e_terms e)) es.
Proof.
  induction es as [|e r IH]; intros d0 H GD; simpl.
  - split; [exact GD|]. intros. rewrite app_nil_r. reflexivity.
  - destruct (IH (append_master d0 (e_fargs e))) as [A B].
    + intros; apply H; simpl; auto.
    + apply good_append_master. exact GD.
    + split; [exact A|]. intros k. rewrite B. destruct (H e (or_introl eq_refl)) as [[N _] V].
      rewrite val_append_master by exact N. rewrite V, app_assoc. reflexivity.
Qed.

Lemma master_ok : good_dict masterd /\
  forall k, val k masterd = flat_map (fun e => fs_of k (e_terms e)) (flat_map snd genl).
Proof.
  destruct (master_acc (flat_map snd genl) [] e_fargs_good) as [A B]; [split; simpl; constructor|].
  split; [exact A|]. intros k. apply B.
Qed.

Lemma gen_block_ok : mapM (gen_block m) d = Ok (map (fun kv => (fst kv, map (fun c => geq (cfg c)) (snd kv))) d).
Proof.
  apply mapM_ok. intros [n cs] H. unfold gen_block. cbn [fst snd].
  rewrite mapM_ok with (g := fun c => geq (cfg c)); [reflexivity|].
  intros c Hc. destruct (proj2 d_spec n cs H) as [l [-> [_ C]]]. apply in_map_iff in Hc. destruct Hc as [a [<- Ha]].
  cbn [cfg]. apply equation_from_ok. apply C in Ha. apply in_space_total in Ha. apply Ha.
Qed.

Lemma predict_ok : forall L, exists r, predict_total_terms m L = Ok r.
Proof.
  intros L. unfold predict_total_terms. destruct (m_mps m); [eexists; reflexivity|].
  destruct (Nat.eqb (m_ntypes m) 1); [|eexists; reflexivity].
  destruct (gm_wf _ _ G) as [_ [W1 [W2 _]]].
  unfold total_generalized_equations.
  assert (H : forall l, (forall t, In t l -> (t < m_ntypes m)%nat) -> exists r, mapM (fun bt =>
      match nth_error (m_pe m) bt, nth_error (m_pn m) bt with
      | Some m', Some n' =>
          Ok (sumZ (map (fun m => sumZ (map (combinatorics_term m) (range 1 (n' + 1))))
                        (range 1 (m' + 1))))
      | None, _ => Err IndexError
      | Some m', None => if m' <? 1 then Ok 0 else Err IndexError
      end) l = Ok r).
  { induction l as [|t r IH]; intros Hl; [eexists; reflexivity|]. cbn [mapM].
    rewrite (nth_error_nth' (m_pe m) 0) by (rewrite W1; apply Hl; simpl; auto).
    rewrite (nth_error_nth' (m_pn m) 0) by (rewrite W2; apply Hl; simpl; auto). cbn [bind].
    destruct IH as [r' E]; [intros; apply Hl; simpl; auto|]. rewrite E. cbn [bind]. eexists; reflexivity. }
  destruct (H (seq 0 (m_ntypes m))) as [r E]; [intros t Ht; apply in_seq in Ht; lia|].
  rewrite E. cbn [bind]. eexists; reflexivity.
Qed.

Lemma generalized_ok : generalized ord m d = Ok (genl, determine_unique ord masterd).
Proof.
  unfold generalized. rewrite gen_block_ok. cbn [bind]. rewrite green_equation_ok. cbn [bind].
  fold genl. destruct (predict_ok (sumZ (map (fun kv => Z.of_nat (List.length (snd kv))) genl))) as [r E].
  rewrite E. reflexivity.
Qed.

(** The hypotheses of section Assemble. *)
Lemma A_idx : forall e, In e (flat_map snd genl) -> t_h (e_index e) = None /\ ndim (cfg (t_cfg (e_index e))) = 1%nat.
Proof.
  intros e He. apply In_allg in He. destruct He as [->|[a [Sa ->]]]; (split; [reflexivity|]).
  - apply vac_valid.
  - cbn. destruct (space_unfold m ae a Sa) as [_ [_ [_ [_ [N1 _]]]]]. exact N1.
Qed.

Lemma A_terms : forall e t, In e (flat_map snd genl) -> In t (e_terms e) ->
  (exists f, t_f t = Some f /\ List.length (v2 f) = 1%nat) /\
  (t_kind t = KEom \/
   ((t_kind t = KAnnih \/ t_kind t = KCreat) /\ exists g, t_g t = Some g /\ List.length (v2 g) = 1%nat)).
Proof.
  intros e t He Ht. apply In_allg in He. destruct He as [->|[a [Sa ->]]]; cbn [e_terms green geq] in Ht.
  - destruct (green_terms_sound t Ht) as [h [Hh [_ [EF _]]]]. unfold eom_for in EF.
    destruct EF as [K [_ [_ [_ [_ [_ E]]]]]]. split; [|left; exact K].
    exists (ht_phi h). split; [exact E|]. apply (gm_phi _ _ G). exact Hh.
  - destruct (gen_terms_f a t Sa Ht) as [A B]. split; [exact A|right; exact B].
Qed.

Lemma f_dtype : forall e t, In e (flat_map snd genl) -> In t (e_terms e) ->
  exists h, In h (h_terms (m_ham m)) /\ isf (f_of t) = isf (ht_phi h) /\
    (t_kind t = KEom \/ forall g, t_g t = Some g -> isf g = isf (ht_psi h) || isf (ht_phi h)).
Proof.
  intros e t He Ht. apply In_allg in He. destruct He as [->|[a [Sa ->]]]; cbn [e_terms green geq] in Ht.
  - destruct (green_terms_sound t Ht) as [h [Hh [_ [EF _]]]]. unfold eom_for in EF.
    destruct EF as [K [_ [_ [_ [_ [_ E]]]]]]. exists h. split; [exact Hh|]. unfold f_of. rewrite E. split; [reflexivity|left; exact K].
  - destruct (gen_term_sound m ae G a t Sa Ht) as [h [x [e [mult [kd [Hh [_ [_ [FL _]]]]]]]]].
    destruct FL as [_ [_ [[f [Ef If]] [g [Eg Ig]]]]]. exists h. split; [exact Hh|]. unfold f_of. rewrite Ef.
    split; [exact If|right]. intros g' Hg'. rewrite Eg in Hg'. injection Hg' as <-. exact Ig.
Qed.

Lemma A_dtype : forall e t g e' t', In e (flat_map snd genl) -> In t (e_terms e) -> t_g t = Some g ->
  In e' (flat_map snd genl) -> In t' (e_terms e') -> isf (f_of t') = true -> isf g = true \/ t_kind t = KEom.
Proof.
  intros e t g e' t' He Ht Eg He' Ht' If.
  destruct (f_dtype e t He Ht) as [h [Hh [_ [K|H]]]]; [right; exact K|left].
  destruct (f_dtype e' t' He' Ht') as [h' [Hh' [E _]]]. rewrite (H g Eg).
  apply (gm_dtype _ _ G h h' Hh Hh'). congruence.
Qed.

Lemma pid_free : forall a b, valid_cloud a -> valid_cloud b -> phonon_free a -> phonon_free b ->
  phonon_config_id a = phonon_config_id b.
Proof. intros a b Va Vb Fa Fb. apply phonon_config_id_spec; auto. Qed.

Lemma A_closed : forall e t, In e (flat_map snd genl) -> In t (e_terms e) ->
  exists e', In e' (flat_map snd genl) /\ pid (e_index e') = pid t.
Proof.
  intros e t He Ht. pose proof He as He0. apply In_allg in He. destruct He as [->|[a [Sa ->]]]; cbn [e_terms green geq] in Ht.
  - destruct (green_terms_sound t Ht) as [h [_ [_ [_ [_ [_ [Sc _]]]]]]].
    exists (geq (cfg (t_cfg t))). split; [apply In_allg; right; eexists; split; [exact Sc|reflexivity]|reflexivity].
  - destruct (gen_term_sound m ae G a t Sa Ht) as [h [x [e [mult [kd [Hh [_ [TF [_ [_ [_ [F|Sc]]]]]]]]]]]].
    + exists green. split; [apply In_allg; left; reflexivity|]. destruct TF as [s [Vb _]].
      destruct vac_valid as [Vv [Tv _]]. unfold pid. cbn. apply pid_free; auto. apply valid_total_free; assumption.
    + exists (geq (cfg (t_cfg t))). split; [apply In_allg; right; eexists; split; [exact Sc|reflexivity]|reflexivity].
Qed.

Lemma A_reached : forall e, In e (flat_map snd genl) ->
  exists e' t, In e' (flat_map snd genl) /\ In t (e_terms e') /\ pid t = pid (e_index e).
Proof.
  intros e He. apply In_allg in He. destruct He as [->|[a [Sa ->]]].
  - destruct (green_reached m ae G) as [b [t [Sb [Ht F]]]]. exists (geq b), t.
    split; [apply In_allg; right; eexists; split; [exact Sb|reflexivity]|]. split; [exact Ht|].
    destruct (gen_term_sound m ae G b t Sb Ht) as [h [x [e [mult [kd [_ [_ [TF _]]]]]]]]. destruct TF as [s [Vb _]].
    destruct vac_valid as [Vv [Tv _]]. unfold pid. cbn. apply pid_free; auto. apply valid_total_free; assumption.
  - destruct (space_unfold m ae a Sa) as [_ [_ [P _]]]. destruct (Z.eq_dec (total a) 1) as [E1|N1].
    + destruct (one_phonon m ae a Sa E1) as [t [Ht ->]]. destruct (gm_plus _ _ G t Ht) as [h [Hh [Hi Hd]]].
      destruct (green_terms_complete h Hh Hd) as [tt [H1 [_ H2]]]. exists green, tt.
      split; [apply In_allg; left; reflexivity|]. split; [exact H1|]. unfold pid. rewrite H2, Hi. reflexivity.
    + destruct (reached_by_creation m ae G a Sa ltac:(lia)) as [b [t [Sb [Ht E]]]]. exists (geq b), t.
      split; [apply In_allg; right; eexists; split; [exact Sb|reflexivity]|]. split; [exact Ht|]. unfold pid. rewrite E. reflexivity.
Qed.

Definition neededl := needed ord masterd.
Definition eqsl := map (fun kv : Z * list (equation T) => (fst kv, full_block ord masterd (snd kv))) genl.

Lemma prime_ok : prime_system ord m = Ok (mkSys m genl (determine_unique ord masterd) eqsl).
Proof.
  unfold prime_system. rewrite Ed. cbn [bind]. rewrite generalized_ok. cbn [bind].
  destruct master_ok as [MG MV].
  rewrite (full_equations_ok ord ord_perm 1 genl masterd MG MV A_idx A_terms A_dtype A_closed A_reached). cbn [bind].
  rewrite (final_ok ord ord_perm 1 genl masterd MV A_terms A_closed A_reached). cbn [bind]. reflexivity.
Qed.

Lemma gen_pids_nodup : NoDup (map (fun e => pid (e_index e)) (flat_map snd genl)).
Proof.
  destruct d_spec as [K D].
  assert (ND : NoDup (map fst d)) by (rewrite K; apply NoDup_range).
  unfold genl. rewrite flat_map_app, map_app. apply NoDup_app.
  - rewrite flat_map_concat_map, map_map. cbn [snd].
    assert (R : map (fun e => pid (e_index e)) (concat (map (fun x => map (fun c => geq (cfg c)) (snd x)) d)) =
                map phonon_config_id (flat_map (fun kv => map cfg (snd kv)) d)).
    { clear. induction d as [|[n cs] r IH]; [reflexivity|]. simpl map. simpl concat. rewrite map_app, IH. simpl flat_map.
      rewrite map_app. f_equal. rewrite !map_map. reflexivity. }
    rewrite R. clear R.
    assert (IN : forall a, In a (flat_map (fun kv => map cfg (snd kv)) d) -> space m ae a).
    { intros a Ha. apply in_flat_map in Ha. destruct Ha as [[n cs] [H1 H2]]. destruct (D n cs H1) as [l [-> [_ C]]].
      cbn [snd] in H2. rewrite map_cfg_mk in H2. apply C in H2. apply in_space_total in H2. apply H2. }
    apply NoDup_map_inj.
    + intros a b Ha Hb E. apply IN in Ha, Hb.
      destruct (space_unfold m ae a Ha) as [Va [NFa _]]. destruct (space_unfold m ae b Hb) as [Vb [NFb _]].
      apply phonon_config_id_spec in E; auto. destruct E as [[F _]|E]; [contradiction|exact E].
    + apply NoDup_flat_map.
      * apply (NoDup_map_inv fst). exact ND.
      * intros [n cs] H. cbn [snd]. destruct (D n cs H) as [l [-> [NL _]]]. rewrite map_cfg_mk. exact NL.
      * intros [n cs] [n' cs'] a H H' Ha Ha'. cbn [snd] in *.
        destruct (D n cs H) as [l [-> [_ C]]]. destruct (D n' cs' H') as [l' [-> [_ C']]].
        rewrite map_cfg_mk in Ha, Ha'. apply C in Ha. apply C' in Ha'.
        destruct (in_space_total _ _ Ha) as [_ E1]. destruct (in_space_total _ _ Ha') as [_ E2].
        assert (En : n = n') by lia. clear E1 E2. subst n'.
        pose proof (assocZ_In d n _ ND H) as A1. pose proof (assocZ_In d n _ ND H') as A2.
        rewrite A1 in A2. injection A2 as A2. rewrite A2. reflexivity.
  - cbn. constructor; [intros []|constructor].
  - intros x H1 H2. cbn in H2. destruct H2 as [<-|[]]. apply in_map_iff in H1. destruct H1 as [e [E He]].
    assert (He2 : exists a, space m ae a /\ e = geq a).
    { apply in_flat_map in He. destruct He as [kv [H1 H2]]. apply in_map_iff in H1. destruct H1 as [[n cs] [<- H1]].
      cbn [snd] in H2. apply in_map_iff in H2. destruct H2 as [c [<- Hc]]. destruct (D n cs H1) as [l [-> [_ C]]].
      apply in_map_iff in Hc. destruct Hc as [a [<- Ha]]. exists a. split; [|reflexivity]. apply C in Ha.
      apply in_space_total in Ha. apply Ha. }
    destruct He2 as [a [Sa ->]]. destruct (space_unfold m ae a Sa) as [Va [NFa _]]. destruct vac_valid as [Vv [Tv _]].
    unfold pid in E. cbn in E. apply phonon_config_id_spec in E; auto.
    destruct E as [[F _]|E]; [contradiction|]. apply NFa. subst a. apply valid_total_free; assumption.
Qed.

Lemma allg_valid : forall e, In e (flat_map snd genl) -> valid_cloud (cfg (t_cfg (e_index e))).
Proof.
  intros e He. apply In_allg in He. destruct He as [->|[a [Sa ->]]].
  - apply vac_valid.
  - apply (space_unfold m ae a Sa).
Qed.

Lemma eqs_nodup : NoDup (index_ids (flat_map snd eqsl)).
Proof.
  destruct master_ok as [MG MV].
  apply (index_nodup ord ord_perm genl masterd gen_pids_nodup allg_valid).
Qed.

Lemma eqs_closed : forall x, In x (index_ids (flat_map snd eqsl)) <-> In x (rhs_ids (flat_map snd eqsl)).
Proof.
  destruct master_ok as [MG MV].
  apply (ids_closed ord ord_perm 1 genl masterd MV A_terms A_closed A_reached).
Qed.

End Prime.
