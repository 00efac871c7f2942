(** The equations of a constructed system for arbitrary values of the unknowns
    (used by C42, C47, C48). *)
From Coq Require Import String ZArith List Bool Lia Permutation Ring.
From Verif Require Import Base NdArray NdArray_proofs Config Spec Spec_ops Config_proofs Modify_proofs Legal_proofs
  Model Space Spec_space Space_proofs Count_proofs Render Render_proofs Term Equation System Spec_engine
  Term_proofs Equation_proofs System_proofs Prime_proofs Engine_proofs Order_proofs Ring Coef Spec_eom Eom_proofs
  Solvers Spec_solve Sysok_proofs Sparse_proofs.
Import ListNotations.
Open Scope list_scope.
Open Scope Z_scope.

Definition sgn {T} (h : hterm T) : Z := match ht_dag h with Minus => -1 | Plus => 1 end.
Definition multi {T} (a : nd) (h : hterm T) (x : Z) : Z := match ht_dag h with Minus => occ a (ht_index h) [x] | Plus => 1 end.

(** The cloud reached by [h] at [x], and the position of its corner. *)
Definition next {T} (a : nd) (h : hterm T) (x : Z) : nd * Z :=
  match ht_dag h with
  | Minus => match remove_phonon (mkConfig a 1 0) [Z.of_nat (ht_index h); x] with
             | Ok (c, s) => (cfg c, hd 0 (shift_vec 1 s)) | Err _ => (a, 0) end
  | Plus => match add_phonon (mkConfig a 1 0) [Z.of_nat (ht_index h); x] with
            | Ok (c, s) => (cfg c, - hd 0 (shift_vec 1 s)) | Err _ => (a, 0) end
  end.

Definition jump {T} {K : cring} (e : env T K) (u : nd * list Z -> K) (p : nd * Z) (y : Z) : K :=
  if total (fst p) =? 0 then kmul (ph e [y]) (u (fst p, [0]))
  else kmul (ph e [-2 * snd p]) (u (fst p, [y + 2 * snd p])).

Definition summand {T} {K : cring} (e : env T K) (u : nd * list Z -> K) (l : list (T * Z)) (a : nd) (d : Z) (h : hterm T) (x : Z) : K :=
  kmul (kmul (kmul (ev e (ht_coupling h)) (kz (multi a h x))) (g0 e [psi1 h - phi1 h + 2 * x + d] l)) (jump e u (next a h x) (phi1 h - 2 * x)).

Definition gsummand {T} {K : cring} (e : env T K) (u : nd * list Z -> K) (nt : nat) (h : hterm T) : K :=
  kmul (kmul (kmul (ev e (ht_coupling h)) (kz 1)) (kmul (G0 e) (ph e [psi1 h - phi1 h]))) (u (single_phonon nt 1 (ht_index h), [phi1 h])).

Section Rows.
Context {T : Type}.
Variable m : model T.
Variable ae : Z.
Hypothesis G : good_model m ae.
Let ops := h_terms (m_ham m).

Definition st (a : nd) (h : hterm T) : list Z := map (hd 0) (sites m ae a h).

Lemma st_spec : forall a h, space m ae a -> In h ops -> NoDup (st a h) /\ forall x, In x (st a h) <-> acts_at m ae a h [x].
Proof.
  intros a h Sa Hh. assert (I : forall x, In x (sites m ae a h) <-> acts_at m ae a h x) by (intros; apply In_sites; assumption). split.
  - apply NoDup_map_inj; [|apply sites_nodup; assumption]. intros x y Hx Hy Exy. apply I in Hx, Hy. destruct Hx as [Lx _]. destruct Hy as [Ly _].
    destruct x as [|x0 [|]], y as [|y0 [|]]; try discriminate. simpl in Exy. congruence.
  - intros x. unfold st. rewrite in_map_iff. split.
    + intros [y [<- Hy]]. apply I in Hy. pose proof (proj1 Hy) as Ly. destruct y as [|y0 [|]]; try discriminate. exact Hy.
    + intros H. exists [x]. split; [reflexivity|]. apply I. exact H.
Qed.

Lemma next_spec : forall a h x, space m ae a -> In h ops -> acts_at m ae a h [x] ->
  valid_cloud (fst (next a h x)) /\ modified_by a (fst (next a h x)) [snd (next a h x)] (ht_index h) [x] (sgn h) /\
  total (fst (next a h x)) = total a + sgn h /\
  (phonon_free (fst (next a h x)) \/ space m ae (fst (next a h x))).
Proof.
  intros a h x Sa Hh [_ A]. destruct (space_unfold m ae a Sa) as [V [NF [P [NT [N1 _]]]]]. unfold next, sgn.
  destruct (ht_dag h) eqn:D.
  - pose proof (gm_index _ _ G h Hh) as Hi.
    destruct (add_spec_prop a 1 0 (ht_index h) [x] V NF ltac:(lia) ltac:(lia) ltac:(rewrite N1; reflexivity)) as [b [s [E [Vb [M [Tb Es]]]]]].
    rewrite E. cbn [fst snd cfg shift_vec]. rewrite Es in *. cbn [map hd] in *. split; [exact Vb|]. split; [exact M|]. split; [lia|].
    right. destruct A as [b' [s' [Vb' [M' Sb']]]]. assert (NFb : ~ phonon_free b) by (apply pos_not_free; [exact Vb|lia]).
    destruct (space_unfold m ae b' Sb') as [_ [NF' _]].
    destruct (modified_unique a b b' _ _ _ _ _ V Vb Vb' NFb NF' M M') as [<- _]. exact Sb'.
  - destruct (remove_spec_prop a 1 0 (ht_index h) [x] V ltac:(lia) A) as [b [s [E [Vb [M [Tb Z0]]]]]]. rewrite E. cbn [fst snd cfg].
    rewrite N1 in M. pose proof M as [_ [_ [Ls _]]]. rewrite N1 in Ls. destruct (shift_vec 1 s) as [|s0 [|]] eqn:Es; try discriminate. cbn [hd].
    split; [exact Vb|]. split; [exact M|]. split; [lia|].
    destruct (Z.eq_dec (total b) 0) as [Tz|Tn]; [left; apply valid_total_free; assumption|right].
    assert (NFb : ~ phonon_free b) by (intros F; apply Tn; apply valid_total_free; assumption).
    eapply remove_in_space; eassumption.
Qed.

(** The unknowns that occur. *)
Definition reached (a : nd) (d : Z) : Prop :=
  (exists h, In h ops /\ ht_dag h = Plus /\ a = single_phonon (m_ntypes m) 1 (ht_index h) /\ d = phi1 h) \/
  exists b h x s, space m ae b /\ In h ops /\ acts_at m ae b h [x] /\ modified_by b a [s] (ht_index h) [x] (sgn h) /\ d = phi1 h - 2 * x + 2 * s.

Lemma vec1 : forall h, In h ops -> v2 (ht_phi h) = [phi1 h] /\ v2 (ht_psi h) = [psi1 h].
Proof.
  intros h Hh. pose proof (gm_phi _ _ G h Hh) as L1. pose proof (gm_psi _ _ G h Hh) as L2. unfold phi1, psi1.
  destruct (v2 (ht_phi h)) as [|p [|]]; try discriminate. destruct (v2 (ht_psi h)) as [|r [|]]; try discriminate. auto.
Qed.

Lemma term_val : forall {K : cring} (e : env T K) u a h x t v l d, proper u -> space m ae a -> In h ops ->
  acts_at m ae a h [x] -> energy_of (h_freqs (m_ham m)) a l -> v2 v = [d] -> rhs_term m ae a h [x] t ->
  kmul (coefficient e (incr v t)) (u (unk (incr v t))) = summand e u l a d h x.
Proof.
  intros K e u a h x t v l d Pu Sa Hh Hx El Ev R.
  destruct (space_unfold m ae a Sa) as [Va [_ [_ [_ [N1 _]]]]]. destruct (vec1 h Hh) as [Ephi Epsi].
  assert (TF : term_for m a h [x] (sgn h) (multi a h x) t /\ (t_kind t = KAnnih \/ t_kind t = KCreat)).
  { unfold rhs_term in R. unfold sgn, multi. destruct (ht_dag h); split; tauto. }
  destruct TF as [TF KD]. destruct TF as [s [Vb [M [Ec [Ef [[g [Eg Vg]] [f [Eff HF]]]]]]]].
  pose proof M as [_ [_ [Ls _]]]. rewrite N1 in Ls. destruct s as [|s0 [|]]; try discriminate.
  pose proof (energy_unique _ _ _ _ Ef El) as Efs. rewrite Ephi, Epsi in *. cbn [dbl map oppv subv addv] in *.
  destruct (next_spec a h x Sa Hh Hx) as [Vn [Mn [Tn _]]].
  assert (CO : coefficient e (incr v t) = kmul (kmul (kmul (ev e (ht_coupling h)) (kz (multi a h x))) (ph e (v2 (t_exp t))))
      (g0 e [psi1 h + - phi1 h + 2 * x + d] l)).
  { unfold coefficient, incr. destruct KD as [Kd|Kd]; rewrite Kd, Eg; cbn [t_kind t_g t_const t_exp t_fshift v2];
      rewrite Ec, Vg, Ev, Efs; unfold subv; cbn [oppv map addv const_of]; reflexivity. }
  rewrite CO. unfold summand. replace (psi1 h - phi1 h + 2 * x + d) with (psi1 h + - phi1 h + 2 * x + d) by lia.
  assert (UN : u (unk (incr v t)) = u (cfg (t_cfg t), v2 f)).
  { unfold unk. rewrite (proj1 (incr_cfg v t)), (proj2 (incr_cfg v t)), Eff. reflexivity. }
  rewrite UN. pose proof (Ring_theory.Rmul_comm (klaws K)) as MC. pose proof (Ring_theory.Rmul_assoc (klaws K)) as MA.
  assert (RG : forall p q r z : K, kmul (kmul (kmul p q) r) z = kmul (kmul p r) (kmul q z)) by (intros p q r z; rewrite <- (MA p q r), (MC q r), (MA p r q), <- (MA (kmul p r) q z); reflexivity).
  rewrite RG. f_equal. unfold jump.
  destruct HF as [[NF [Hf He]]|[FR [Hf He]]].
  - assert (TB : total (cfg (t_cfg t)) = total a + sgn h).
    { eapply (modified_total a); [apply valid_wf; exact Va|apply valid_wf; exact Vb|pose proof (valid_rank a Va); lia|exact M|rewrite N1; reflexivity]. }
    pose proof (valid_not_free_pos _ Vb NF) as PB. destruct (Z.eqb_spec (total (fst (next a h x))) 0) as [Z0|Z0]; [lia|].
    assert (NFn : ~ phonon_free (fst (next a h x))) by (apply pos_not_free; [exact Vn|lia]).
    destruct (modified_unique a _ _ _ _ _ _ _ Va Vn Vb NFn NF Mn M) as [Eb Es]. assert (s0 = snd (next a h x)) by congruence. subst s0.
    rewrite He, Hf, Eb. unfold subv. cbn [oppv map addv]. replace (- (2 * snd (next a h x))) with (-2 * snd (next a h x)) by lia.
    replace (phi1 h + - (2 * x) + 2 * snd (next a h x)) with (phi1 h - 2 * x + 2 * snd (next a h x)) by lia. reflexivity.
  - assert (TB : total (cfg (t_cfg t)) = total a + sgn h).
    { eapply (modified_total a); [apply valid_wf; exact Va|apply valid_wf; exact Vb|pose proof (valid_rank a Va); lia|exact M|rewrite N1; reflexivity]. }
    assert (Z0 : total (cfg (t_cfg t)) = 0) by (apply valid_total_free; assumption).
    destruct (Z.eqb_spec (total (fst (next a h x))) 0) as [Z1|Z1]; [|lia].
    rewrite He, Hf, N1. unfold subv. cbn [oppv map addv zerov repeat]. replace (phi1 h + - (2 * x)) with (phi1 h - 2 * x) by lia.
    f_equal. apply Pu; [exact Vb|exact Vn|exact FR|apply valid_total_free; assumption].
Qed.

Lemma cloud_sum : forall {K : cring} (e : env T K) u a v d l, proper u -> space m ae a -> v2 v = [d] -> energy_of (h_freqs (m_ham m)) a l ->
  ksum (map (fun t => kmul (coefficient e t) (u (unk t))) (map (incr v) (gen_terms m ae a))) =
  ksum (map (fun h => ksum (map (summand e u l a d h) (st a h))) ops).
Proof.
  intros K e u a v d l Pu Sa Ev El. rewrite map_map. unfold gen_terms. rewrite ksum_flat. fold ops. apply ksum_ext. intros h Hh.
  unfold st. rewrite map_map. apply ksum_Forall2. eapply Forall2_impl; [|apply Forall2_In_l, (h_rhs_exact m ae G a h Sa Hh)].
  intros x t [R Hx]. cbn beta. apply (In_sites m ae G a h x Sa Hh) in Hx. pose proof (proj1 Hx) as Lx.
  destruct x as [|x0 [|]]; try discriminate. cbn [hd]. apply term_val; assumption.
Qed.

Lemma green_sum : forall {K : cring} (e : env T K) (u : nd * list Z -> K) v,
  ksum (map (fun t => kmul (coefficient e t) (u (unk t))) (map (incr v) (green_terms m))) =
  ksum (map (gsummand e u (m_ntypes m)) (filter creation ops)).
Proof.
  intros K e u v. rewrite map_map. apply ksum_Forall2. unfold green_terms. fold ops.
  assert (A : forall l, (forall h, In h l -> In h ops) ->
    Forall2 (fun h t => kmul (coefficient e (incr v t)) (u (unk (incr v t))) = gsummand e u (m_ntypes m) h) (filter creation l) (flat_map (fun h => okl (green_term m h)) l)).
  { intros l Hl. apply flat_filter. intros h Hh. apply Hl in Hh. pose proof (gm_index _ _ G h Hh) as Hi. destruct (vec1 h Hh) as [Ephi Epsi].
    destruct (green_term_spec m h) as [[D E]|[D [t [E [EF Ec]]]]].
    - rewrite (h_dim1 m ae G). lia.
    - exact Hi.
    - rewrite Ephi, Epsi. reflexivity.
    - left. unfold creation. rewrite D, E. auto.
    - right. unfold creation. rewrite D, E. split; [reflexivity|]. exists t. split; [reflexivity|].
      destruct EF as [Kd [Vb [Sh [Oc [Ecn [Eex Ef]]]]]]. rewrite (h_dim1 m ae G) in Ec.
      unfold incr. rewrite Kd. unfold coefficient, gsummand. rewrite Kd, Ecn, Eex, Ephi, Epsi. unfold subv. cbn [oppv map addv const_of].
      unfold unk. rewrite Ef, Ephi, Ec. replace (psi1 h - phi1 h) with (psi1 h + - phi1 h) by lia.
      rewrite <- !(Ring_theory.Rmul_assoc (klaws K)). reflexivity. }
  apply A. auto.
Qed.

Variable ord : string -> list vec -> list vec.
Hypothesis ord_perm : forall k l, Permutation (ord k l) l.
Variable s : system T.
Hypothesis Es : prime_system ord m = Ok s.

Lemma reached_space : forall a d, reached a d -> valid_cloud a -> phonon_free a \/ space m ae a.
Proof.
  intros a d [[h [Hh [D [-> _]]]]|[b [h [x [s0 [Sb [Hh [Hx [M _]]]]]]]]] Va.
  - right. apply (single_in_space m ae G). apply (gm_index _ _ G h Hh).
  - destruct (next_spec b h x Sb Hh Hx) as [Vn [Mn [Tn H]]]. destruct (space_unfold m ae b Sb) as [Vb [_ [_ [_ [N1 _]]]]].
    assert (TB : total a = total b + sgn h).
    { eapply (modified_total b); [apply valid_wf; exact Vb|apply valid_wf; exact Va|pose proof (valid_rank b Vb); lia|exact M|rewrite N1; reflexivity]. }
    destruct (Z.eq_dec (total a) 0) as [Z0|Z0]; [left; apply valid_total_free; assumption|right].
    assert (NFa : ~ phonon_free a) by (intros F; apply Z0; apply valid_total_free; assumption).
    assert (NFn : ~ phonon_free (fst (next b h x))) by (intros F; apply Z0; apply valid_total_free in F; [lia|exact Vn]).
    destruct (modified_unique b _ _ _ _ _ _ _ Vb Vn Va NFn NFa Mn M) as [-> _]. destruct H; [contradiction|assumption].
Qed.

Lemma term_reached : forall a h x t, space m ae a -> In h ops -> acts_at m ae a h [x] -> rhs_term m ae a h [x] t ->
  ~ phonon_free (cfg (t_cfg t)) -> exists f d, t_f t = Some f /\ v2 f = [d] /\ reached (cfg (t_cfg t)) d.
Proof.
  intros a h x t Sa Hh Hx R NF. destruct (space_unfold m ae a Sa) as [Va [_ [_ [_ [N1 _]]]]]. destruct (vec1 h Hh) as [Ephi Epsi].
  assert (TF : term_for m a h [x] (sgn h) (multi a h x) t).
  { unfold rhs_term in R. unfold sgn, multi. destruct (ht_dag h); tauto. }
  destruct TF as [s0 [Vb [M [_ [_ [_ [f [Eff HF]]]]]]]].
  pose proof M as [_ [_ [Ls _]]]. rewrite N1 in Ls. destruct s0 as [|s0 [|]]; try discriminate.
  destruct HF as [[_ [Hf _]]|[FR _]]; [|contradiction]. rewrite Ephi in Hf. unfold subv in Hf. cbn [dbl oppv map addv] in Hf.
  exists f. eexists. split; [exact Eff|]. split; [exact Hf|]. right. exists a, h, x, s0. repeat (split; [assumption|]). lia.
Qed.

Lemma eq_rows : forall q, In q (all_eqs s) ->
  (e_green q = false /\ exists a d l, unk (e_index q) = (a, [d]) /\ space m ae a /\ reached a d /\ energy_of (h_freqs (m_ham m)) a l /\
     forall (K : cring) (e : env T K) u, proper u -> row e u q = kadd (u (a, [d])) (ksum (map (fun h => ksum (map (summand e u l a d h) (st a h))) ops))) \/
  (e_green q = true /\ unk (e_index q) = (vac m, [0]) /\
     forall (K : cring) (e : env T K) u, row e u q = kadd (u (vac m, [0])) (ksum (map (gsummand e u (m_ntypes m)) (filter creation ops)))).
Proof.
  intros q Hq. apply In_all in Hq. destruct Hq as [k [es [Hk Hq]]].
  destruct (index_arg1 m ae G ord ord_perm s Es k es q Hk Hq) as [v [d [Ef [Ev C]]]].
  destruct (s_eq_form m ae G ord ord_perm s Es k es q Hk Hq) as [v' [C' [k' [es' [q' [t [H1 [H2 [H3 [H4 H5]]]]]]]]]].
  destruct C as [[-> Eq]|[a [Sa [Ta Eq]]]].
  - right. destruct (green_block m ae G ord ord_perm s Es) as [q0 [_ [_ [F0 [[f0 [Ef0 Z0]] [l [El [P N]]]]]]]].
    assert (Eq0 : q = q0).
    { rewrite El in Hk. apply in_app_iff in Hk. destruct Hk as [Hk|[Hk|[]]].
      - rewrite Forall_forall in P. apply P in Hk. simpl in Hk. lia.
      - injection Hk as <-. destruct Hq as [->|[]]. reflexivity. }
    assert (Z1 : v2 v = [0]) by (rewrite <- Eq0, Ef in Ef0; injection Ef0 as <-; exact Z0). subst q. clear Eq0.
    split; [reflexivity|]. assert (U : unk (e_index (full (green m) v)) = (vac m, [0])) by (unfold unk; cbn [full e_index with_f t_cfg t_f cfg]; rewrite Z1; reflexivity).
    split; [exact U|]. intros K e u. unfold row. rewrite U. f_equal. apply green_sum.
  - left. subst q. split; [reflexivity|]. destruct (space_unfold m ae a Sa) as [Va [NFa [_ [NT _]]]].
    destruct (energy_ex (h_freqs (m_ham m)) a) as [l El]; [rewrite NT; apply (gm_freqs _ _ G)|].
    assert (U : unk (e_index (full (geq m ae a) v)) = (a, [d])) by (unfold unk; cbn [full e_index with_f t_cfg t_f cfg]; rewrite Ev; reflexivity).
    exists a, d, l. split; [exact U|]. split; [exact Sa|]. split; [|split; [exact El|]].
    + assert (v' = v) as -> by (destruct C' as [[_ C']|[a' [_ [_ C']]]]; apply (f_equal (fun q => t_f (e_index q))) in C'; cbn in C'; congruence).
      clear C'. destruct (index_arg1 m ae G ord ord_perm s Es k' es' q' H1 H2) as [v1 [d1 [_ [Ev1 C1]]]].
      assert (Vt : valid_cloud (cfg (t_cfg t))) by (apply (q_valid m ae G ord ord_perm s Es k' es' q' H1 H2); exact H3).
      assert (Ea : cfg (t_cfg t) = a).
      { apply (phonon_config_id_spec _ a Vt Va) in H5. destruct H5 as [[_ F]|E]; [contradiction|exact E]. }
      destruct C1 as [[_ ->]|[b [Sb [_ ->]]]]; cbn [full e_terms] in H3; apply in_map_iff in H3; destruct H3 as [t0 [<- H0]];
        rewrite (proj1 (incr_cfg v1 t0)) in Ea; rewrite (proj2 (incr_cfg v1 t0)) in H4.
      * destruct (green_terms_sound m ae G t0 H0) as [h [Hh [D [EF [_ [E1 _]]]]]]. left. exists h. split; [exact Hh|]. split; [exact D|].
        split; [congruence|]. destruct EF as [_ [_ [_ [_ [_ [_ E]]]]]]. destruct (vec1 h Hh) as [Ephi _]. congruence.
      * unfold geq in H0. cbn [e_terms] in H0. unfold gen_terms in H0. apply in_flat_map in H0. destruct H0 as [h [Hh H0]].
        pose proof (h_rhs_exact m ae G b h Sb Hh) as F2.
        assert (X : exists x, In x (sites m ae b h) /\ rhs_term m ae b h x t0).
        { clear -F2 H0. induction F2 as [|x y l l' R1 F IH]; [destruct H0|]. destruct H0 as [<-|H0]; [exists x; simpl; auto|]. destruct (IH H0) as [z [Z1 Z2]]. exists z. simpl. auto. }
        destruct X as [x [Hx R]]. apply (In_sites m ae G b h x Sb Hh) in Hx. pose proof (proj1 Hx) as Lx. destruct x as [|x0 [|]]; try discriminate.
        destruct (term_reached b h x0 t0 Sb Hh Hx R) as [f [d' [E1 [E2 R']]]]; [rewrite Ea; exact NFa|]. rewrite Ea in R'.
        assert (d' = d) as -> by congruence. exact R'.
    + intros K e u Pu. unfold row. rewrite U. f_equal. cbn [full e_terms geq]. apply (cloud_sum e u a v d l Pu Sa Ev El).
Qed.

Lemma eq_exists : forall a d, space m ae a -> reached a d -> exists q, In q (all_eqs s) /\ unk (e_index q) = (a, [d]) /\ e_green q = false.
Proof.
  intros a d Sa R. destruct (s_is m ae G ord ord_perm s Es) as [dd [Ed E]].
  assert (IA : forall q, In q (all_eqs s) <-> exists e v, In e (flat_map snd (genl m ae dd)) /\ In v (needed ord (masterd m ae dd) (pid (e_index e))) /\ q = full e v).
  { intros q. rewrite E. unfold all_eqs. cbn [s_eqs]. apply (In_alleqs ord (genl m ae dd) (masterd m ae dd)). }
  assert (N : In [d] (map v2 (needed ord (masterd m ae dd) (pid (idx a : term T))))).
  { destruct (master_ok m ae G dd Ed) as [MG MV]. apply (In_needed ord ord_perm (genl m ae dd) (masterd m ae dd) MV).
    destruct (space_unfold m ae a Sa) as [Va [NFa _]].
    destruct R as [[h [Hh [D [Ea Ed']]]]|[b [h [x [s0 [Sb [Hh [Hx [M Ed']]]]]]]]]; destruct (vec1 h Hh) as [Ephi _].
    - destruct (green_terms_complete m ae G h Hh D) as [t [Ht [EF Ec]]]. exists (green m), t. split; [apply (In_allg m ae G dd Ed); left; reflexivity|].
      split; [exact Ht|]. split; [unfold pid; rewrite Ec, <- Ea; reflexivity|]. destruct EF as [_ [_ [_ [_ [_ [_ Ef]]]]]].
      unfold f_of. rewrite Ef, Ephi, Ed'. reflexivity.
    - exists (geq m ae b). pose proof (h_rhs_exact m ae G b h Sb Hh) as F2. pose proof (proj2 (In_sites m ae G b h [x] Sb Hh) Hx) as Hs.
      assert (X : exists t, In t (h_rhs m ae b h) /\ rhs_term m ae b h [x] t).
      { clear -F2 Hs. induction F2 as [|x' y l l' R1 F IH]; [destruct Hs|]. destruct Hs as [->|Hs]; [exists y; simpl; auto|].
        destruct (IH Hs) as [t [H1 H2]]. exists t. simpl. auto. }
      destruct X as [t [Ht Rt]]. exists t. split; [apply (In_allg m ae G dd Ed); right; exists b; auto|].
      split; [cbn [geq e_terms]; unfold gen_terms; apply in_flat_map; exists h; auto|].
      assert (TF : term_for m b h [x] (sgn h) (multi b h x) t).
      { unfold rhs_term in Rt. unfold sgn, multi. destruct (ht_dag h); tauto. }
      destruct (space_unfold m ae b Sb) as [Vb [_ [_ [_ [N1 _]]]]].
      destruct TF as [s1 [Vt [Mt [_ [_ [_ [f [Eff HF]]]]]]]].
      assert (TT : total (cfg (t_cfg t)) = total a).
      { rewrite (modified_total b (cfg (t_cfg t)) s1 (ht_index h) [x] (sgn h)), (modified_total b a [s0] (ht_index h) [x] (sgn h)); try reflexivity;
          try assumption; try (apply valid_wf; assumption); try (pose proof (valid_rank b Vb); lia); rewrite N1; reflexivity. }
      assert (NFt : ~ phonon_free (cfg (t_cfg t))) by (intros F; apply NFa, valid_total_free; [exact Va|]; rewrite <- TT; apply valid_total_free; assumption).
      destruct (modified_unique b _ _ _ _ _ _ _ Vb Va Vt NFa NFt M Mt) as [Eb ->].
      split; [unfold pid; rewrite Eb; reflexivity|]. unfold f_of. rewrite Eff. destruct HF as [[_ [Hf _]]|[FR _]]; [|contradiction].
      rewrite Hf, Ephi. unfold subv. cbn [dbl oppv map addv]. rewrite Ed'. reflexivity. }
  apply in_map_iff in N. destruct N as [v [Ev Hv]]. exists (full (geq m ae a) v). split; [|split; [|reflexivity]].
  - apply IA. exists (geq m ae a), v. split; [apply (In_allg m ae G dd Ed); right; exists a; auto|]. split; [exact Hv|reflexivity].
  - unfold unk. cbn [full e_index with_f t_cfg t_f cfg]. rewrite Ev. reflexivity.
Qed.

(** The system as conditions on reached unknowns. *)
Definition conditions {K : cring} (e : env T K) (u : nd * list Z -> K) (g : K) : Prop :=
  (forall a d l, space m ae a -> reached a d -> energy_of (h_freqs (m_ham m)) a l ->
     kadd (u (a, [d])) (ksum (map (fun h => ksum (map (summand e u l a d h) (st a h))) ops)) = k0) /\
  kadd (u (vac m, [0])) (ksum (map (gsummand e u (m_ntypes m)) (filter creation ops))) = g.

Lemma green_ex : exists q, In q (all_eqs s) /\ e_green q = true.
Proof. destruct (green_block m ae G ord ord_perm s Es) as [q [H [E _]]]. exists q. split; [apply In_all; exists 0, [q]; simpl; auto|exact E]. Qed.

Lemma rows_iff : forall {K : cring} (e : env T K) u g, proper u ->
  ((forall q, In q (all_eqs s) -> row e u q = if e_green q then g else k0) <-> conditions e u g).
Proof.
  intros K e u g Pu. split.
  - intros H. split.
    + intros a d l Sa R El. destruct (eq_exists a d Sa R) as [q [Hq [U Eg]]]. specialize (H q Hq). rewrite Eg in H.
      destruct (eq_rows q Hq) as [[_ [a' [d' [l' [U' [_ [_ [El' RW]]]]]]]]|[Eg' _]]; [|congruence].
      rewrite U in U'. assert (a' = a) as -> by congruence. assert (d' = d) as -> by congruence.
      rewrite <- (energy_unique _ _ _ _ El' El). rewrite <- (RW K e u Pu). exact H.
    + destruct green_ex as [q [Hq Eg]]. specialize (H q Hq). rewrite Eg in H.
      destruct (eq_rows q Hq) as [[Eg' _]|[_ [_ RW]]]; [congruence|]. rewrite <- (RW K e u). exact H.
  - intros [H1 H2] q Hq. destruct (eq_rows q Hq) as [[Eg [a [d [l [U [Sa [R [El RW]]]]]]]]|[Eg [U RW]]]; rewrite Eg.
    + rewrite (RW K e u Pu). apply H1; assumption.
    + rewrite (RW K e u). exact H2.
Qed.

Lemma solution_iff : forall {K : cring} (e : env T K) u, proper u -> (solution e s u <-> conditions e u (G0 e)).
Proof. intros K e u Pu. rewrite <- (rows_iff e u (G0 e) Pu). unfold solution, holds, bias. reflexivity. Qed.

Lemma g_value_vac : forall {K : cring} (u : nd * list Z -> K), g_value s u (u (vac m, [0])).
Proof. intros K u q Hq Eg. destruct (eq_rows q Hq) as [[Eg' _]|[_ [U _]]]; [congruence|]. rewrite U. reflexivity. Qed.

Lemma regular_iff : forall {K : cring} (e : env T K), nonsingular (mkCoo (NN s) (NN s) (triplets e s)) <->
  forall u, proper u -> conditions e u k0 -> u (vac m, [0]) = k0 /\ forall a d, space m ae a -> reached a d -> u (a, [d]) = k0.
Proof.
  intros K e. destruct (sys_ok_good m ae ord s G ord_perm Es) as [O _]. rewrite (nonsingular_iff e s O). split.
  - intros H u Pu C. pose proof (proj2 (rows_iff e u k0 Pu) C) as C'. assert (Z0 : forall q, In q (all_eqs s) -> u (unk (e_index q)) = k0).
    { apply H; [exact Pu|]. intros q Hq. rewrite (C' q Hq). destruct (e_green q); reflexivity. }
    split.
    + destruct green_ex as [q [Hq Eg]]. specialize (Z0 q Hq). destruct (eq_rows q Hq) as [[Eg' _]|[_ [U _]]]; [congruence|]. rewrite U in Z0. exact Z0.
    + intros a d Sa R. destruct (eq_exists a d Sa R) as [q [Hq [U _]]]. rewrite <- U. apply Z0. exact Hq.
  - intros H u Pu C q Hq. destruct (H u Pu) as [Z0 Z1].
    { apply (proj1 (rows_iff e u k0 Pu)). intros q' Hq'. rewrite (C q' Hq'). destruct (e_green q'); reflexivity. }
    destruct (eq_rows q Hq) as [[_ [a [d [l [U [Sa [R _]]]]]]]|[_ [U _]]]; rewrite U; auto.
Qed.
End Rows.
