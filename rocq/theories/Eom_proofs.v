(** The generated equations are the truncated equation of motion (C16). *)
From Coq Require Import String ZArith List Bool Lia Permutation Ring.
From Verif Require Import Base NdArray NdArray_proofs Config Spec Spec_ops Config_proofs Modify_proofs Legal_proofs
  Model Space Spec_space Space_proofs Count_proofs Render Render_proofs Term Equation System Spec_engine
  Term_proofs Equation_proofs System_proofs Prime_proofs Engine_proofs Ring Coef Spec_eom.
Import ListNotations.
Open Scope list_scope.
Open Scope Z_scope.

Lemma nth_error_ext_eq : forall {A} (l l' : list A), (forall n, nth_error l n = nth_error l' n) -> l = l'.
Proof.
  induction l as [|x r IH]; intros [|y r'] H; [reflexivity|specialize (H 0%nat); discriminate|specialize (H 0%nat); discriminate|].
  pose proof (H 0%nat) as E. simpl in E. injection E as ->. f_equal. apply IH. intros n. exact (H (S n)).
Qed.

Lemma energy_unique : forall {T} (freqs : list T) a l l', energy_of freqs a l -> energy_of freqs a l' -> l = l'.
Proof.
  intros T freqs a l l' [L H] [L' H']. apply nth_error_ext_eq. intros n.
  destruct (Nat.lt_ge_cases n (ntypes a)) as [C|C].
  - destruct (H n C) as [f [E1 E2]]. destruct (H' n C) as [f' [E1' E2']]. congruence.
  - rewrite (proj2 (nth_error_None l n)), (proj2 (nth_error_None l' n)) by lia. reflexivity.
Qed.

Lemma energy_ex : forall {T} (freqs : list T) a, (ntypes a <= List.length freqs)%nat -> exists l, energy_of freqs a l.
Proof.
  intros T freqs a H. destruct (freq_shift_spec freqs a H) as [l [_ E]]. exists l. exact E.
Qed.

Section Eom.
Context {T : Type} {K : cring}.
Add Ring KR : (klaws K).
Variable e : env T K.
Variable F : family K.
Hypothesis C : covariant e F.
Variable m : model T.
Variable ae : Z.
Hypothesis G : good_model m ae.

Lemma modified_cloud : forall a b s0 t x d, ndim a = 1%nat -> modified_by a b [s0] t [x] d ->
  forall t' y, cloud b t' y = shifted (changed (cloud a) t x d) s0 t' y.
Proof.
  intros a b s0 t x d N1 [_ [_ [_ M]]] t' y. unfold cloud, shifted, changed.
  rewrite (M t' [y] ltac:(rewrite N1; reflexivity)). cbn [addv eqlZ]. rewrite andb_true_r. reflexivity.
Qed.

Lemma term_value : forall a h x t v l d, space m ae a -> In h (h_terms (m_ham m)) ->
  energy_of (h_freqs (m_ham m)) a l -> v2 v = [d] ->
  rhs_term m ae a h [x] t ->
  kmul (coefficient e (incr v t)) (of_family F (unk (incr v t))) = eom_summand e F l a d h x.
Proof.
  intros a h x t v l d Sa Hh El Ev R.
  destruct (space_unfold m ae a Sa) as [_ [_ [_ [_ [N1 _]]]]].
  pose proof (gm_phi _ _ G h Hh) as Lphi. pose proof (gm_psi _ _ G h Hh) as Lpsi.
  set (n := match ht_dag h with Minus => occ a (ht_index h) [x] | Plus => 1 end).
  set (sg := match ht_dag h with Minus => -1 | Plus => 1 end).
  assert (TF : term_for m a h [x] sg n t /\ (t_kind t = KAnnih \/ t_kind t = KCreat)).
  { unfold rhs_term in R. subst n sg. destruct (ht_dag h); split; tauto. }
  destruct TF as [TF KD]. destruct TF as [s [Vb [M [Ec [Ef [[g [Eg Vg]] [f [Eff HF]]]]]]]].
  pose proof M as [_ [_ [Ls _]]]. rewrite N1 in Ls. destruct s as [|s0 [|]]; try discriminate.
  pose proof (energy_unique _ _ _ _ Ef El) as Efs.
  destruct (v2 (ht_phi h)) as [|p [|]] eqn:Ephi; try discriminate.
  destruct (v2 (ht_psi h)) as [|r [|]] eqn:Epsi; try discriminate.
  cbn [dbl map oppv subv addv] in *.
  assert (CO : coefficient e (incr v t) = kmul (kmul (kmul (ev e (ht_coupling h)) (kz n)) (ph e (v2 (t_exp t))))
      (g0 e [r + - p + 2 * x + d] l)).
  { unfold coefficient, incr. destruct KD as [Kd|Kd]; rewrite Kd, Eg; cbn [t_kind t_g t_const t_exp t_fshift v2];
      rewrite Ec, Vg, Ev, Efs; unfold subv; cbn [oppv map addv const_of]; reflexivity. }
  rewrite CO. unfold eom_summand. fold n sg. unfold phi1, psi1. rewrite Ephi, Epsi. cbn [hd].
  assert (UN : of_family F (unk (incr v t)) = F (cloud (cfg (t_cfg t))) (hd 0 (v2 f))).
  { unfold of_family, unk. rewrite (proj1 (incr_cfg v t)), (proj2 (incr_cfg v t)), Eff. reflexivity. }
  rewrite UN. replace (r - p + 2 * x + d) with (r + - p + 2 * x + d) by lia.
  destruct HF as [[NF [Hf He]]|[FR [Hf He]]].
  - rewrite He, Hf. unfold subv. cbn [oppv dbl map addv hd].
    rewrite (cov_shift _ _ C (changed (cloud a) (ht_index h) x sg) s0 (p - 2 * x)).
    rewrite (cov_ext _ _ C (cloud (cfg (t_cfg t))) (shifted (changed (cloud a) (ht_index h) x sg) s0))
      by (apply modified_cloud; assumption).
    replace (- (2 * s0)) with (-2 * s0) by lia. replace (p + - (2 * x) + 2 * s0) with (p - 2 * x + 2 * s0) by lia.
    ring.
  - rewrite He, Hf, N1. unfold subv. cbn [oppv dbl map addv hd zerov repeat].
    rewrite (cov_ext _ _ C (cloud (cfg (t_cfg t))) vacuum) by (intros t' y; apply FR).
    rewrite (cov_ext _ _ C (changed (cloud a) (ht_index h) x sg) vacuum).
    + rewrite (cov_vac _ _ C (p - 2 * x)). replace (p + - (2 * x)) with (p - 2 * x) by lia. ring.
    + intros t' y. pose proof (modified_cloud _ _ _ _ _ _ N1 M t' (y - s0)) as E.
      unfold shifted in E. replace (y - s0 + s0) with y in E by lia. rewrite <- E. apply FR.
Qed.

Lemma ksum_app : forall (l l' : list K), ksum (l ++ l') = kadd (ksum l) (ksum l').
Proof. induction l as [|x r IH]; intros l'; simpl; [ring|]. unfold ksum in *. rewrite IH. ring. Qed.

Lemma ksum_Forall2 : forall {A B} (f : A -> K) (g : B -> K) l l',
  Forall2 (fun x y => g y = f x) l l' -> ksum (map g l') = ksum (map f l).
Proof. intros A B f g l l' H. induction H; simpl; [reflexivity|]. unfold ksum in *. congruence. Qed.

Lemma Forall2_impl : forall {A B} (R R' : A -> B -> Prop) l l', (forall x y, R x y -> R' x y) -> Forall2 R l l' -> Forall2 R' l l'.
Proof. intros A B R R' l l' H F2. induction F2; constructor; auto. Qed.

Lemma Forall2_In_l : forall {A B} (R : A -> B -> Prop) l l', Forall2 R l l' -> Forall2 (fun x y => R x y /\ In x l) l l'.
Proof.
  intros A B R l l' H. induction H; constructor; [simpl; auto|].
  eapply Forall2_impl; [|exact IHForall2]. simpl. tauto.
Qed.

Lemma ksum_flat : forall {A B} (f : A -> list B) (g : B -> K) l,
  ksum (map g (flat_map f l)) = ksum (map (fun x => ksum (map g (f x))) l).
Proof. induction l as [|x r IH]; simpl; [reflexivity|]. rewrite map_app, ksum_app. unfold ksum in *. simpl. rewrite IH. reflexivity. Qed.

Lemma cloud_eom : forall a v d l, space m ae a -> v2 v = [d] -> energy_of (h_freqs (m_ham m)) a l ->
  exists st, acting m ae a st /\
  ksum (map (fun t => kmul (coefficient e t) (of_family F (unk t))) (map (incr v) (gen_terms m ae a))) =
  ksum (map (fun h => ksum (map (eom_summand e F l a d h) (st h))) (h_terms (m_ham m))).
Proof.
  intros a v d l Sa Ev El. destruct (terms_exact m ae G a Sa) as [ts [st [E [ST R]]]].
  rewrite (initialize_spec m ae G a Sa) in E. injection E as E. fold (gen_terms m ae a) in E.
  exists (fun h => map (hd 0) (st h)). split.
  - intros h Hh. destruct (ST h Hh) as [ND I]. split.
    + apply NoDup_map_inj; [|exact ND]. intros x y Hx Hy Exy. apply I in Hx, Hy. destruct Hx as [Lx _]. destruct Hy as [Ly _].
      destruct x as [|x0 [|]], y as [|y0 [|]]; try discriminate. simpl in Exy. congruence.
    + intros x. rewrite in_map_iff. split.
      * intros [y [<- Hy]]. apply I in Hy. pose proof (proj1 Hy) as Ly. destruct y as [|y0 [|]]; try discriminate. exact Hy.
      * intros H. exists [x]. split; [reflexivity|]. apply I. exact H.
  - rewrite E, map_map.
    transitivity (ksum (map (fun p => eom_summand e F l a d (fst p) (hd 0 (snd p)))
                    (flat_map (fun h => map (pair h) (st h)) (h_terms (m_ham m))))).
    + apply ksum_Forall2. apply Forall2_In_l in R. eapply Forall2_impl; [|exact R].
      intros [h x] t [Rt Hin]. cbn [fst snd] in *. apply in_flat_map in Hin. destruct Hin as [h' [Hh' Hx]].
      apply in_map_iff in Hx. destruct Hx as [x' [Ex Hx]]. injection Ex as -> ->.
      apply (ST h Hh') in Hx. pose proof (proj1 Hx) as Lx. destruct x as [|x0 [|]]; try discriminate. cbn [hd].
      apply term_value; assumption.
    + rewrite ksum_flat. f_equal. apply map_ext. intros h. rewrite !map_map. reflexivity.
Qed.

Lemma green_eom : forall v,
  ksum (map (fun t => kmul (coefficient e t) (of_family F (unk t))) (map (incr v) (green_terms m))) =
  ksum (map (green_summand e F) (filter creation (h_terms (m_ham m)))).
Proof.
  intros v. rewrite map_map. apply ksum_Forall2. unfold green_terms, creation, green_summand.
  assert (A : forall l, (forall h, In h l -> In h (h_terms (m_ham m))) ->
    Forall2 (fun h t => kmul (coefficient e (incr v t)) (of_family F (unk (incr v t))) =
       kmul (kmul (kmul (ev e (ht_coupling h)) (kz 1)) (kmul (G0 e) (ph e [psi1 h - phi1 h])))
                           (F (changed vacuum (ht_index h) 0 1) (phi1 h)))
     (filter (fun h => match ht_dag h with Plus => true | Minus => false end) l)
     (flat_map (fun h => okl (green_term m h)) l)).
  { intros l Hl. apply flat_filter. intros h Hh. apply Hl in Hh. pose proof (gm_index _ _ G h Hh) as Hi.
    pose proof (gm_phi _ _ G h Hh) as Lphi. pose proof (gm_psi _ _ G h Hh) as Lpsi.
    destruct (green_term_spec m h) as [[D E]|[D [t [E [EF Ec]]]]].
    - rewrite (h_dim1 m ae G). lia.
    - exact Hi.
    - lia.
    - left. rewrite D, E. auto.
    - right. rewrite D, E. split; [reflexivity|]. exists t. split; [reflexivity|].
      destruct EF as [Kd [Vb [Sh [Oc [Ecn [Eex Ef]]]]]]. rewrite (h_dim1 m ae G) in Oc.
      destruct (v2 (ht_phi h)) as [|p [|]] eqn:Ephi; try discriminate.
      destruct (v2 (ht_psi h)) as [|r [|]] eqn:Epsi; try discriminate.
      unfold incr. rewrite Kd. unfold coefficient. rewrite Kd, Ecn, Eex. unfold subv. cbn [oppv map addv const_of].
      unfold of_family, unk. rewrite Ef. cbn [fst snd]. rewrite Ephi. unfold psi1, phi1. rewrite Ephi, Epsi. cbn [hd].
      rewrite (cov_ext _ _ C (cloud (cfg (t_cfg t))) (changed vacuum (ht_index h) 0 1)).
      + replace (r - p) with (r + - p) by lia. ring.
      + intros t' y. unfold cloud, changed, vacuum. rewrite Oc by reflexivity. cbn [zerov repeat eqlZ]. rewrite andb_true_r. reflexivity. }
  apply A. auto.
Qed.

Variable ord : string -> list vec -> list vec.
Hypothesis ord_perm : forall k l, Permutation (ord k l) l.
Variable s : system T.
Hypothesis Es : prime_system ord m = Ok s.

Lemma index_arg1 : forall k es q, In (k, es) (s_eqs s) -> In q es ->
  exists v d, t_f (e_index q) = Some v /\ v2 v = [d] /\
    ((k = 0 /\ q = full (green m) v) \/ exists a, space m ae a /\ total a = k /\ q = full (geq m ae a) v).
Proof.
  intros k es q Hk Hq. destruct (s_eq_form m ae G ord ord_perm s Es k es q Hk Hq) as [v [A [k' [es' [q' [t [H1 [H2 [H3 [H4 _]]]]]]]]]].
  destruct (q_valid m ae G ord ord_perm s Es k' es' q' H1 H2) as [_ [_ B]]. destruct (B t H3) as [_ [f [Ef Lf]]].
  rewrite H4 in Ef. injection Ef as <-. destruct (v2 v) as [|d [|]] eqn:Ev; try discriminate.
  exists v, d. split; [|split; [exact Ev|exact A]]. destruct A as [[_ ->]|[a [_ [_ ->]]]]; reflexivity.
Qed.

Lemma system_rows : forall k es q, In (k, es) (s_eqs s) -> In q es ->
  (0 < k /\ bias e q = k0 /\ exists a d l st, unk (e_index q) = (a, [d]) /\ space m ae a /\ total a = k /\
     energy_of (h_freqs (m_ham m)) a l /\ acting m ae a st /\
     row e (of_family F) q = kadd (F (cloud a) d) (ksum (map (fun h => ksum (map (eom_summand e F l a d h) (st h))) (h_terms (m_ham m))))) \/
  (k = 0 /\ bias e q = G0 e /\ snd (unk (e_index q)) = [0] /\ phonon_free (fst (unk (e_index q))) /\
     row e (of_family F) q = kadd (F vacuum 0) (ksum (map (green_summand e F) (filter creation (h_terms (m_ham m)))))).
Proof.
  intros k es q Hk Hq. destruct (index_arg1 k es q Hk Hq) as [v [d [Ef [Ev [[-> ->]|[a [Sa [Ta ->]]]]]]]].
  - right. split; [reflexivity|]. split; [reflexivity|].
    destruct (green_block m ae G ord ord_perm s Es) as [q0 [_ [_ [F0 [[f0 [Ef0 Z0]] [l [El [P N]]]]]]]].
    assert (Eq0 : full (green m) v = q0).
    { rewrite El in Hk. apply in_app_iff in Hk. destruct Hk as [Hk|[Hk|[]]].
      - rewrite Forall_forall in P. apply P in Hk. simpl in Hk. lia.
      - injection Hk as <-. destruct Hq as [->|[]]. reflexivity. }
    rewrite <- Eq0 in *.
    split; [|split].
    + unfold unk. rewrite Ef0. cbn [snd]. exact Z0.
    + exact F0.
    + unfold row. f_equal; [|apply green_eom].
      unfold of_family, unk. rewrite Ef0. cbn [fst snd]. rewrite Z0. cbn [hd]. apply (cov_ext _ _ C). intros t x. apply F0.
  - left. destruct (space_unfold m ae a Sa) as [_ [_ [P [NT _]]]]. split; [lia|]. split; [reflexivity|].
    destruct (energy_ex (h_freqs (m_ham m)) a) as [l El]; [rewrite NT; apply (gm_freqs _ _ G)|].
    destruct (cloud_eom a v d l Sa Ev El) as [st [ST E]]. exists a, d, l, st.
    split; [unfold unk; cbn [full e_index with_f t_cfg t_f cfg]; rewrite Ev; reflexivity|].
    split; [exact Sa|]. split; [exact Ta|]. split; [exact El|]. split; [exact ST|].
    unfold row. f_equal; [|exact E]. unfold of_family, unk. cbn [full e_index with_f t_f t_cfg fst snd]. rewrite Ev. reflexivity.
Qed.

End Eom.

(** A successful [init_full] is [full]. *)
Lemma increment_inv : forall {T} (t t' : term T) v, increment_g t v = Ok t' -> t' = incr v t.
Proof.
  intros T t t' v H. unfold increment_g in H. unfold incr.
  assert (A : forall g, bind (vadd_ip g v) (fun g' =>
     Ok (mkTerm (t_kind t) (t_cfg t) (t_h t) (t_const t) (t_exp t) (t_f t) (Some g') (t_fshift t))) = Ok t' ->
     t' = mkTerm (t_kind t) (t_cfg t) (t_h t) (t_const t) (t_exp t) (t_f t) (Some (mkVec (isf g) (addv (v2 g) (v2 v)))) (t_fshift t)).
  { intros g Hg. unfold vadd_ip in Hg. destruct (negb (isf g) && isf v); [discriminate|].
    destruct (Nat.eqb _ _); [|discriminate]. cbn [bind] in Hg. injection Hg as <-. reflexivity. }
  destruct (t_kind t) eqn:Kd.
  - discriminate.
  - injection H as <-. reflexivity.
  - destruct (t_g t); [|discriminate]. rewrite (A _ H). reflexivity.
  - destruct (t_g t); [|discriminate]. rewrite (A _ H). reflexivity.
Qed.

Lemma mapM_inv : forall {A B} (f : A -> result B) (g : A -> B) l ys,
  (forall x y, f x = Ok y -> y = g x) -> mapM f l = Ok ys -> ys = map g l.
Proof.
  intros A B f g l. induction l as [|x r IH]; intros ys H E; simpl in E.
  - injection E as <-. reflexivity.
  - destruct (f x) as [y|] eqn:Ey; cbn [bind] in E; [|discriminate].
    destruct (mapM f r) as [l'|] eqn:El; cbn [bind] in E; [|discriminate]. injection E as <-.
    simpl. rewrite (H _ _ Ey), (IH l' H eq_refl). reflexivity.
Qed.

Lemma init_full_inv : forall {T} (e q : equation T) v, init_full e v = Ok q ->
  q = full e v /\ List.length (v2 v) = n_spatial (t_cfg (e_index e)).
Proof.
  intros T e q v H. unfold init_full, set_f_arg in H.
  destruct (t_h (e_index e)) eqn:Eh; [discriminate|]. unfold checked, guard in H.
  destruct (Nat.eqb _ _) eqn:EL; cbn [bind] in H; [|discriminate].
  destruct (mapM _ _) as [ts|] eqn:Em; cbn [bind] in H; [|discriminate]. injection H as <-.
  split; [|apply Nat.eqb_eq; exact EL]. rewrite (mapM_inv _ (incr v) _ _ (fun x y => increment_inv x y v) Em). reflexivity.
Qed.

Section Rows.
Context {T : Type} {K : cring}.
Variable e : env T K.
Variable F : family K.
Hypothesis C : covariant e F.
Variable m : model T.
Variable ae : Z.
Hypothesis G : good_model m ae.

Lemma cloud_row : forall a q0 q v, space m ae a -> equation_from m a = Ok q0 -> init_full q0 v = Ok q ->
  exists d l st, v2 v = [d] /\ energy_of (h_freqs (m_ham m)) a l /\ acting m ae a st /\ bias e q = k0 /\
  row e (of_family F) q = kadd (F (cloud a) d) (ksum (map (fun h => ksum (map (eom_summand e F l a d h) (st h))) (h_terms (m_ham m)))).
Proof.
  intros a q0 q v Sa E0 E. rewrite (equation_from_ok m ae G a Sa) in E0. injection E0 as <-.
  destruct (init_full_inv _ _ _ E) as [-> Lv]. destruct (space_unfold m ae a Sa) as [_ [_ [_ [NT [N1 _]]]]].
  unfold n_spatial, geq, idx in Lv. cbn [e_index t_cfg cfg] in Lv.
  assert (L1 : List.length (v2 v) = 1%nat) by (rewrite Lv, <- N1; unfold ndim; destruct (shp a); reflexivity).
  destruct (v2 v) as [|d [|]] eqn:Ev; try discriminate.
  destruct (energy_ex (h_freqs (m_ham m)) a) as [l El]; [rewrite NT; apply (gm_freqs _ _ G)|].
  destruct (cloud_eom e F C m ae G a v d l Sa Ev El) as [st [ST E2]]. exists d, l, st.
  split; [reflexivity|]. split; [exact El|]. split; [exact ST|]. split; [reflexivity|].
  unfold row. f_equal; [|exact E2]. unfold of_family, unk. cbn [full e_index with_f t_f t_cfg fst snd]. rewrite Ev. reflexivity.
Qed.

Lemma green_row : forall q0 q v, green_equation m = Ok q0 -> init_full q0 v = Ok q ->
  exists d, v2 v = [d] /\ bias e q = G0 e /\
  row e (of_family F) q = kadd (F vacuum d) (ksum (map (green_summand e F) (filter creation (h_terms (m_ham m))))).
Proof.
  intros q0 q v E0 E. rewrite (green_equation_ok m ae G) in E0. injection E0 as <-.
  destruct (init_full_inv _ _ _ E) as [-> Lv]. unfold n_spatial, green, idx, vac in Lv. cbn in Lv.
  destruct (v2 v) as [|d [|]] eqn:Ev; try discriminate. exists d. split; [reflexivity|]. split; [reflexivity|].
  unfold row. f_equal; [|apply (green_eom e F C m ae G)].
  unfold of_family, unk. cbn [full e_index with_f t_f t_cfg fst snd green]. rewrite Ev. cbn [hd]. apply (cov_ext _ _ C).
  intros t x. destruct (vac_valid m) as [V [Tz _]]. apply (proj1 (valid_total_free _ V) Tz).
Qed.

End Rows.

Section NoPhonon.
Context {T : Type} {K : cring}.
Add Ring KR2 : (klaws K).

Lemma no_phonon_no_term : forall (e : env T K) (F : family K) m ae a h l d x,
  space m ae a -> In h (h_terms (m_ham m)) -> ht_dag h = Minus -> ~ acts_at m ae a h [x] ->
  eom_summand e F l a d h x = k0.
Proof.
  intros e F m ae a h l d x Sa Hh D N. unfold acts_at in N. rewrite D in N. unfold eom_summand. rewrite D.
  destruct (space_unfold m ae a Sa) as [V [_ [_ [_ [N1 _]]]]].
  assert (NN : 0 <= occ a (ht_index h) [x]).
  { apply (proj1 (occ_nonneg a ltac:(unfold ndim in N1; destruct (shp a); simpl in *; lia)) (valid_nonneg a V)). }
  assert (Z0 : occ a (ht_index h) [x] = 0) by (destruct (Z.eq_dec (occ a (ht_index h) [x]) 0); [assumption|exfalso; apply N; split; [reflexivity|lia]]).
  rewrite Z0. cbn [kz]. ring.
Qed.

End NoPhonon.
