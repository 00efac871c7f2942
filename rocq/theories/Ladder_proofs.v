(** The ladder of single-site clouds (C54). *)
From Coq Require Import String ZArith List Bool Lia Permutation Ring.
From Verif Require Import Base NdArray NdArray_proofs Config Spec Spec_ops Config_proofs Modify_proofs Legal_proofs
  Model HModel Space Spec_space Space_proofs Count_proofs Render Render_proofs Term Equation System Spec_engine
  Term_proofs Equation_proofs System_proofs Prime_proofs Engine_proofs Order_proofs Ring Coef Spec_eom Eom_proofs
  Solvers Spec_solve Sysok_proofs Sparse_proofs Rows_proofs Spec_ma.
Import ListNotations.
Open Scope list_scope.
Open Scope Z_scope.

(** [n] phonons on one site *)
Definition one (n : Z) : nd := mkNd [1%nat; 1%nat] [n].

Lemma occ_one : forall n t x, occ (one n) t x = if Nat.eqb t 0 && eqlZ x [0] then n else 0.
Proof.
  intros n t x. unfold occ, at_. cbn [one shp]. destruct t as [|t].
  - destruct x as [|z [|y x]]; try reflexivity.
    + cbn [inb Nat.eqb andb eqlZ]. destruct (Z.eqb_spec z 0) as [->|N]; [reflexivity|].
      replace ((0 <=? z) && (z <? Z.of_nat 1)) with false; [rewrite !andb_false_r; reflexivity|]. symmetry. apply andb_false_iff.
      destruct (Z.leb_spec 0 z); [right; apply Z.ltb_ge; lia|left; reflexivity].
    + cbn [inb Nat.eqb andb eqlZ]. rewrite !andb_false_r. reflexivity.
  - cbn [inb]. replace (Z.of_nat (S t) <? Z.of_nat 1) with false by (symmetry; apply Z.ltb_ge; lia). rewrite andb_false_r. reflexivity.
Qed.
Lemma occ_one0 : forall n, occ (one n) 0 [0] = n. Proof. intros. rewrite occ_one. reflexivity. Qed.
Lemma total_one : forall n, total (one n) = n. Proof. intros. unfold total, one. cbn. lia. Qed.
Lemma tt_one : forall n, total_type (one n) 0 = n. Proof. intros n. unfold total_type, one. cbn. lia. Qed.
Lemma tight_one : forall n, 0 < n -> tight (one n).
Proof.
  intros n H d Hd. cbn in Hd. assert (d = 0%nat) as -> by lia. split; exists 0%nat, [0]; (split; [reflexivity|]; split; [reflexivity|rewrite occ_one0; exact H]).
Qed.
Lemma nonneg_one : forall n, 0 <= n -> forall t x, 0 <= occ (one n) t x.
Proof. intros n H t x. rewrite occ_one. destruct (_ && _); lia. Qed.
Lemma valid_one : forall n, 0 <= n -> valid_cloud (one n).
Proof.
  intros n H. split; [reflexivity|]. split; [cbn; lia|]. split; [apply nonneg_one; exact H|].
  destruct (Z.eq_dec n 0) as [->|N]; [left; intros t x; rewrite occ_one; destruct (_ && _); reflexivity|right; apply tight_one; lia].
Qed.
Lemma free_one : forall n, phonon_free (one n) -> n = 0. Proof. intros n H. rewrite <- (occ_one0 n). apply H. Qed.
Lemma free_one0 : phonon_free (one 0). Proof. intros t x. rewrite occ_one. destruct (_ && _); reflexivity. Qed.

Lemma modified_one : forall n e, modified_by (one n) (one (n + e)) [0] 0 [0] e.
Proof.
  intros n e. split; [reflexivity|]. split; [reflexivity|]. split; [reflexivity|]. intros t x Lx. destruct x as [|z [|]]; try discriminate Lx.
  replace (addv [z] [0]) with [z] by (cbn [addv]; f_equal; lia). rewrite !occ_one. destruct (Nat.eqb t 0 && eqlZ [z] [0]); lia.
Qed.

Section Ladder.
Context {T : Type} {F : cfield}.
Add Ring KRl : (klaws F).
Variables (m : model T) (ae : Z) (c Om : T) (M N : Z).
Hypothesis G : good_model m ae.
Hypothesis H : holstein m c Om M N.
Let top := most m N.

Lemma vac_one : vac m = one 0. Proof. unfold vac. rewrite (ho_types _ _ _ _ _ H). reflexivity. Qed.
Lemma single_one : single_phonon (m_ntypes m) 1 0 = one 1. Proof. rewrite (ho_types _ _ _ _ _ H). reflexivity. Qed.

Lemma space_one : forall n, space m ae (one n) <-> 1 <= n <= top.
Proof.
  intros n. split.
  - intros S. destruct (space_unfold m ae _ S) as [_ [_ [P [_ [_ [_ [_ [Hm [_ Hn]]]]]]]]]. rewrite total_one in P.
    specialize (Hn 0%nat ltac:(rewrite (ho_types _ _ _ _ _ H); lia)). rewrite tt_one, (ho_pn _ _ _ _ _ H) in Hn. cbn in Hn.
    unfold top, most. destruct (m_mps m) as [k|] eqn:E; [|lia]. specialize (Hm k eq_refl 0%nat [0]). rewrite occ_one0 in Hm. lia.
  - intros B. unfold space, model_space, in_space. rewrite total_one. rewrite (ho_types _ _ _ _ _ H).
    split; [reflexivity|]. split; [exists 1%nat; split; [reflexivity|pose proof (gm_ae1 _ _ G); lia]|]. split; [reflexivity|].
    right. split; [cbn; lia|]. split; [apply nonneg_one; lia|]. split; [apply tight_one; lia|]. unfold top, most in B.
    split; [|split].
    + intros k E t x. rewrite E in B. rewrite occ_one. pose proof (gm_mps _ _ G k E). destruct (_ && _); lia.
    + intros e0 E t Ht. injection E as <-. cbn in Ht. assert (t = 0%nat) as -> by lia.
      pose proof (gm_pe _ _ G 0%nat ltac:(rewrite (ho_types _ _ _ _ _ H); lia)) as P1. split; [lia|].
      intros x y Hx Hy. rewrite occ_one in Hx, Hy. cbn [Nat.eqb andb] in Hx, Hy. destruct (eqlZ x [0]) eqn:Ex; [|contradiction]. destruct (eqlZ y [0]) eqn:Ey; [|contradiction].
      apply eqlZ_eq in Ex, Ey. subst. cbn [hd]. lia.
    + intros l E t Ht. injection E as <-. cbn in Ht. assert (t = 0%nat) as -> by lia. rewrite tt_one, (ho_pn _ _ _ _ _ H). cbn. destruct (m_mps m); lia.
Qed.

Lemma top_pos : 1 <= top.
Proof.
  pose proof (gm_pn _ _ G 0%nat ltac:(rewrite (ho_types _ _ _ _ _ H); lia)) as P. rewrite (ho_pn _ _ _ _ _ H) in P. cbn in P.
  unfold top, most. destruct (m_mps m) as [k|] eqn:E; [pose proof (gm_mps _ _ G k E)|]; lia.
Qed.

Lemma energy_one : forall n, energy_of (h_freqs (m_ham m)) (one n) [(Om, n)].
Proof.
  intros n. split; [reflexivity|]. intros t Ht. cbn in Ht. assert (t = 0%nat) as -> by lia. exists Om. rewrite (ho_freqs _ _ _ _ _ H), tt_one. auto.
Qed.

(** Both operators on [one n], at site 0. *)
Lemma kz_1 : @kz F 1 = k1. Proof. cbn. ring. Qed.
Lemma next_one : forall h n, In h (h_terms (m_ham m)) -> ht_index h = 0%nat -> 1 <= n <= top -> 1 <= n + sgn h -> acts_at m ae (one n) h [0] -> next (one n) h 0 = (one (n + sgn h), 0).
Proof.
  intros h n Hh I B B' A. destruct (next_spec m ae G (one n) h 0 (proj2 (space_one n) B) Hh A) as [V [M' [T' _]]]. rewrite I in M'.
  assert (NF : ~ phonon_free (fst (next (one n) h 0))) by (intros Fr; apply (valid_total_free _ V) in Fr; rewrite total_one in T'; lia).
  assert (NF' : ~ phonon_free (one (n + sgn h))) by (intros Fr; apply free_one in Fr; lia).
  destruct (modified_unique (one n) _ _ _ _ _ _ _ (valid_one n ltac:(lia)) V (valid_one (n + sgn h) ltac:(lia)) NF NF' M' (modified_one n (sgn h))) as [E1 E2].
  destruct (next (one n) h 0) as [b s]. cbn [fst snd] in *. congruence.
Qed.

(** Only the site of the cloud contributes: either clouds of a single site, or
    no propagation between sites. *)
Variable e : env T F.
Hypothesis single : M = 1 \/ forall x l, x <> 0 -> g0 e [2 * x] l = k0.
Let p (n : Z) : F := g0 e [0] [(Om, n)].
Let g : F := ev e c.

Lemma acts_minus : forall h n, ht_dag h = Minus -> ht_index h = 0%nat -> 1 <= n -> forall x, acts_at m ae (one n) h [x] <-> x = 0.
Proof.
  intros h n D I B x. unfold acts_at. rewrite D, I, occ_one. cbn [Nat.eqb andb eqlZ]. rewrite andb_true_r. split.
  - intros [_ A]. destruct (Z.eqb_spec x 0); [assumption|lia].
  - intros ->. split; [reflexivity|]. cbn. lia.
Qed.

Lemma acts_plus : forall h n, ht_dag h = Plus -> ht_index h = 0%nat -> 1 <= n <= top -> (acts_at m ae (one n) h [0] <-> n < top).
Proof.
  intros h n D I B. unfold acts_at. rewrite D, I. split.
  - intros [_ [b [s [V [M' S]]]]]. assert (NF' : ~ phonon_free (one (n + 1))) by (intros Fr; apply free_one in Fr; lia).
    destruct (space_unfold m ae b S) as [_ [NF _]].
    destruct (modified_unique (one n) b (one (n + 1)) _ _ _ _ _ (valid_one n ltac:(lia)) V (valid_one (n + 1) ltac:(lia)) NF NF' M' (modified_one n 1)) as [E _].
    rewrite <- E in S. apply space_one in S. lia.
  - intros L. split; [reflexivity|]. exists (one (n + 1)), [0]. split; [apply valid_one; lia|]. split; [apply modified_one|]. apply space_one. lia.
Qed.

(** With clouds of at most one site nothing can be created elsewhere. *)
Lemma acts_elsewhere : forall h n x, M = 1 -> ht_index h = 0%nat -> 1 <= n <= top -> acts_at m ae (one n) h [x] -> x = 0.
Proof.
  intros h n x M1 I B A. destruct (ht_dag h) eqn:D; [|apply (acts_minus h n D I ltac:(lia)); exact A].
  destruct (Z.eq_dec x 0) as [E|E]; [exact E|exfalso]. unfold acts_at in A. rewrite D, I in A. destruct A as [_ [b [s [V [M' S]]]]].
  destruct M' as [_ [_ [Ls M']]]. destruct s as [|s [|]]; try discriminate Ls.
  assert (A1 : occ b 0 [x - s] <> 0).
  { specialize (M' 0%nat [x - s] eq_refl). replace (addv [x - s] [s]) with [x] in M' by (cbn [addv]; f_equal; lia).
    rewrite M', occ_one. cbn [Nat.eqb andb eqlZ]. rewrite Z.eqb_refl, (proj2 (Z.eqb_neq x 0) E). cbn. lia. }
  assert (A2 : occ b 0 [- s] <> 0).
  { specialize (M' 0%nat [- s] eq_refl). replace (addv [- s] [s]) with [0] in M' by (cbn [addv]; f_equal; lia).
    rewrite M', occ_one0. destruct (_ && _); lia. }
  destruct (space_unfold m ae b S) as [_ [_ [_ [_ [_ [_ [_ [_ [He _]]]]]]]]].
  destruct (He 0%nat ltac:(rewrite (ho_types _ _ _ _ _ H); lia)) as [_ X]. pose proof (X _ _ A2 A1) as Y. specialize (X _ _ A1 A2). rewrite (ho_pe _ _ _ _ _ H) in X, Y. cbn [nth hd] in X, Y. lia.
Qed.

Variables (h h' : hterm T).
Hypothesis Ht : h_terms (m_ham m) = [h; h'] /\ ht_dag h = Plus /\ ht_dag h' = Minus.
Hypothesis Hx : forall x, x = h \/ x = h' -> v2 (ht_psi x) = [0] /\ v2 (ht_phi x) = [0] /\ ht_index x = 0%nat /\ ht_coupling x = c.

Lemma In_h : In h (h_terms (m_ham m)). Proof. destruct Ht as [-> _]. simpl. auto. Qed.
Lemma In_h' : In h' (h_terms (m_ham m)). Proof. destruct Ht as [-> _]. simpl. auto. Qed.
Lemma h_is : phi1 h = 0 /\ psi1 h = 0 /\ ht_index h = 0%nat /\ ht_coupling h = c.
Proof. destruct (Hx h (or_introl eq_refl)) as [A [B [I D]]]. unfold phi1, psi1. rewrite A, B. auto. Qed.
Lemma h'_is : phi1 h' = 0 /\ psi1 h' = 0 /\ ht_index h' = 0%nat /\ ht_coupling h' = c.
Proof. destruct (Hx h' (or_intror eq_refl)) as [A [B [I D]]]. unfold phi1, psi1. rewrite A, B. auto. Qed.

Lemma sum_site : forall (f : Z -> F) l b, NoDup l -> (forall x, In x l -> x <> 0 -> f x = k0) -> (In 0 l <-> b = true) -> ksum (map f l) = if b then f 0 else k0.
Proof.
  intros f l b ND Z0 I. destruct b.
  - assert (I0 : In 0 l) by (apply I; reflexivity). destruct (in_split _ _ I0) as [l1 [l2 ->]]. apply NoDup_remove_2 in ND.
    rewrite map_app, ksum_app. cbn [map]. rewrite ksum_cons, !ksum_zero; [ring| |]; intros x Hx'; (apply Z0; [apply in_app_iff; simpl; tauto|]; intros ->; apply ND, in_app_iff; tauto).
  - rewrite ksum_zero; [reflexivity|]. intros x Hx'. apply Z0; [exact Hx'|]. intros ->. apply I in Hx'. discriminate.
Qed.

Lemma reached_one : forall n, 1 <= n <= top -> reached m ae (one n) 0.
Proof.
  intros n B. destruct h_is as [A1 [A2 [A3 A4]]]. destruct Ht as [_ [D D']]. destruct (Z.eq_dec n 1) as [->|N1].
  - left. exists h. rewrite A3, single_one. auto using In_h.
  - right. exists (one (n - 1)), h, 0, 0. split; [apply space_one; lia|]. split; [apply In_h|]. rewrite A1, A3.
    split; [apply (acts_plus h (n - 1) D A3 ltac:(lia)); lia|]. split; [|lia]. unfold sgn. rewrite D.
    pose proof (modified_one (n - 1) 1) as X. replace (n - 1 + 1) with n in X by lia. exact X.
Qed.

(** The rows of the single-site clouds. *)
Lemma row_one : forall u n, proper u -> ph e [0] = k1 -> 1 <= n <= top ->
  ksum (map (fun h0 => ksum (map (summand e u [(Om, n)] (one n) 0 h0) (st m ae (one n) h0))) (h_terms (m_ham m))) =
  kadd (kmul (kmul (kmul g (kz n)) (p n)) (u (one (n - 1), [0])))
       (if n <? top then kmul (kmul g (p n)) (u (one (n + 1), [0])) else k0).
Proof.
  intros u n Pu P0 B. destruct h_is as [A1 [A2 [A3 A4]]]. destruct h'_is as [B1 [B2 [B3 B4]]]. pose proof Ht as [E [D D']].
  pose proof (proj2 (space_one n) B) as Sn.
  rewrite E. cbn [map]. rewrite !ksum_cons. cbn [ksum fold_right].
  assert (OFF : forall x h0, phi1 h0 = 0 -> psi1 h0 = 0 -> ht_index h0 = 0%nat -> In h0 (h_terms (m_ham m)) -> In x (st m ae (one n) h0) -> x <> 0 -> summand e u [(Om, n)] (one n) 0 h0 x = k0).
  { intros x h0 C1 C2 C3 I0 Ix Nx. apply (st_spec m ae G (one n) h0 Sn I0) in Ix. destruct single as [M1|Z0].
    - exfalso. apply Nx. exact (acts_elsewhere h0 n x M1 C3 B Ix).
    - unfold summand. rewrite C1, C2. replace (0 - 0 + 2 * x + 0) with (2 * x) by lia. rewrite (Z0 x _ Nx). ring. }
  rewrite (sum_site _ (st m ae (one n) h) (n <? top)).
  2: exact (proj1 (st_spec m ae G (one n) h Sn In_h)).
  2: intros x Ix Nx; exact (OFF x h A1 A2 A3 In_h Ix Nx).
  2: rewrite (proj2 (st_spec m ae G (one n) h Sn In_h)), (acts_plus h n D A3 B), Z.ltb_lt; reflexivity.
  rewrite (sum_site _ (st m ae (one n) h') true).
  2: exact (proj1 (st_spec m ae G (one n) h' Sn In_h')).
  2: intros x Ix Nx; exact (OFF x h' B1 B2 B3 In_h' Ix Nx).
  2: rewrite (proj2 (st_spec m ae G (one n) h' Sn In_h')), (acts_minus h' n D' B3 ltac:(lia)); split; reflexivity.
  assert (AM : acts_at m ae (one n) h' [0]) by (apply (acts_minus h' n D' B3); [lia|reflexivity]).
  assert (JM : jump e u (next (one n) h' 0) 0 = u (one (n - 1), [0])).
  { destruct (Z.eq_dec n 1) as [->|N1].
    - destruct (next_spec m ae G (one 1) h' 0 Sn In_h' AM) as [V [_ [T' _]]]. rewrite total_one in T'. unfold sgn in T'. rewrite D' in T'.
      unfold jump. rewrite T'. cbn [Z.add Z.eqb Z.pos_sub]. change (1 + -1 =? 0) with true. cbn [Z.sub Z.opp Z.add Z.pos_sub]. rewrite P0.
      rewrite (Pu (fst (next (one 1) h' 0)) (one 0) [0] V (valid_one 0 ltac:(lia))); [ring| |exact free_one0]. apply (valid_total_free _ V). lia.
    - rewrite (next_one h' n In_h' B3 B); [|unfold sgn; rewrite D'; lia|exact AM]. unfold sgn. rewrite D'. unfold jump. cbn [fst snd].
      rewrite total_one. destruct (Z.eqb_spec (n + -1) 0); [lia|]. change (-2 * 0) with 0. change (0 + 2 * 0) with 0. rewrite P0. replace (n + -1) with (n - 1) by lia. ring. }
  assert (VM : summand e u [(Om, n)] (one n) 0 h' 0 = kmul (kmul (kmul g (kz n)) (p n)) (u (one (n - 1), [0]))).
  { unfold summand. rewrite B1, B2, B4. unfold multi. rewrite D', B3, occ_one0. change (0 - 0 + 2 * 0 + 0) with 0. change (0 - 2 * 0) with 0. rewrite JM. reflexivity. }
  rewrite VM. destruct (Z.ltb_spec n top) as [L|L]; [|ring].
  assert (AP : acts_at m ae (one n) h [0]) by (apply (acts_plus h n D A3 B); exact L).
  unfold summand. rewrite A1, A2, A4. unfold multi. rewrite D. change (0 - 0 + 2 * 0 + 0) with 0. change (0 - 2 * 0) with 0.
  rewrite (next_one h n In_h A3 B); [|unfold sgn; rewrite D; lia|exact AP]. unfold sgn. rewrite D. unfold jump. cbn [fst snd]. rewrite total_one.
  destruct (Z.eqb_spec (n + 1) 0); [lia|]. change (-2 * 0) with 0. change (0 + 2 * 0) with 0. rewrite P0.
  replace (@kz F 1) with (@k1 F) by (symmetry; apply kz_1). unfold p, g. ring.
Qed.

Section Solution.
Variables (u : nd * list Z -> F) (gb : F).
Hypothesis Pu : proper u.
Hypothesis P0 : ph e [0] = k1.
Hypothesis Cn : conditions m ae e u gb.
Let y (n : Z) : F := u (one n, [0]).

Lemma y_row : forall n, 1 <= n <= top ->
  kadd (y n) (kadd (kmul (kmul (kmul g (kz n)) (p n)) (y (n - 1))) (if n <? top then kmul (kmul g (p n)) (y (n + 1)) else k0)) = k0.
Proof. intros n B. unfold y. rewrite <- (row_one u n Pu P0 B). apply (proj1 Cn); [apply space_one; exact B|apply reached_one; exact B|apply energy_one]. Qed.

Lemma y_green : kadd (y 0) (kmul (kmul g (G0 e)) (y 1)) = gb.
Proof.
  pose proof (proj2 Cn) as E2. rewrite vac_one in E2. destruct Ht as [E [D D']]. destruct h_is as [A1 [A2 [A3 A4]]].
  rewrite E in E2. cbn [filter] in E2. unfold creation in E2. rewrite D, D' in E2. cbn [map] in E2. rewrite ksum_cons in E2. cbn [ksum fold_right] in E2.
  unfold gsummand in E2. rewrite A1, A2, A3, A4, single_one in E2. change (0 - 0) with 0 in E2. rewrite P0, kz_1 in E2. rewrite <- E2. unfold y, g. ring.
Qed.

Lemma y_ladder : forall r n, 1 <= n -> n + Z.of_nat r = top + 1 -> ladder_ok (kmul g g) p n r -> r <> O ->
  kmul g (y n) = kopp (kmul (ladder (kmul g g) p n r) (y (n - 1))) /\ (y (n - 1) = k0 -> y n = k0).
Proof.
  induction r as [|r IH]; intros n B E OK R1; [contradiction|]. destruct OK as [OK NZ]. pose proof (y_row n ltac:(lia)) as R.
  cbn [ladder]. set (L := ladder (kmul g g) p (n + 1) r) in *. set (Dn := ksub k1 (kmul (p n) L)) in *.
  assert (X : kmul Dn (y n) = kopp (kmul (kmul (kmul g (kz n)) (p n)) (y (n - 1)))).
  { assert (X0 : kmul Dn (y n) = ksub (kadd (y n) (kadd (kmul (kmul (kmul g (kz n)) (p n)) (y (n - 1))) (if n <? top then kmul (kmul g (p n)) (y (n + 1)) else k0))) (kmul (kmul (kmul g (kz n)) (p n)) (y (n - 1)))).
    { destruct (Nat.eq_dec r 0) as [->|R0].
      - rewrite (proj2 (Z.ltb_ge n top)) by lia. unfold Dn, L. cbn [ladder]. ring.
      - destruct (IH (n + 1) ltac:(lia) ltac:(lia) OK R0) as [E1 _]. rewrite (proj2 (Z.ltb_lt n top)) by lia. replace (n + 1 - 1) with n in E1 by lia. fold L in E1.
        assert (E2 : kmul (kmul g (p n)) (y (n + 1)) = kopp (kmul (kmul (p n) L) (y n))).
        { transitivity (kmul (p n) (kmul g (y (n + 1)))); [ring|]. rewrite E1. ring. }
        rewrite E2. unfold Dn. ring. }
    rewrite X0, R. ring. }
  pose proof (kinv_l F Dn NZ) as I. split.
  - transitivity (kmul (kmul (kinv Dn) Dn) (kmul g (y n))); [rewrite I; ring|].
    transitivity (kmul (kmul (kinv Dn) g) (kmul Dn (y n))); [ring|]. rewrite X. ring.
  - intros Z0. transitivity (kmul (kmul (kinv Dn) Dn) (y n)); [rewrite I; ring|].
    transitivity (kmul (kinv Dn) (kmul Dn (y n))); [ring|]. rewrite X, Z0. ring.
Qed.

Hypothesis OK : ladder_ok (kmul g g) p 1 (Z.to_nat top).
Let L1 : F := ladder (kmul g g) p 1 (Z.to_nat top).

(** The closed form. *)
Lemma y_closed : kmul (ksub k1 (kmul (G0 e) L1)) (u (vac m, [0])) = gb.
Proof.
  pose proof top_pos as TP. rewrite vac_one. destruct (y_ladder (Z.to_nat top) 1 ltac:(lia) ltac:(lia) OK ltac:(lia)) as [E _]. change (1 - 1) with 0 in E. fold L1 in E.
  rewrite <- y_green. transitivity (kadd (y 0) (kmul (G0 e) (kopp (kmul L1 (y 0))))); [unfold y; ring|]. rewrite <- E. ring.
Qed.

Lemma y_zero : y 0 = k0 -> forall n, 0 <= n <= top -> y n = k0.
Proof.
  intros Y0. assert (S : forall k : nat, forall n, 1 <= n -> ladder_ok (kmul g g) p (n - Z.of_nat k) (Z.to_nat (top + 1 - n) + k) -> ladder_ok (kmul g g) p n (Z.to_nat (top + 1 - n))).
  { induction k as [|k IH]; intros n B X; [rewrite Nat.add_0_r, Z.sub_0_r in X; exact X|]. apply (IH n B).
    replace (Z.to_nat (top + 1 - n) + S k)%nat with (S (Z.to_nat (top + 1 - n) + k)) in X by lia. destruct X as [X _].
    replace (n - Z.of_nat k) with (n - Z.of_nat (S k) + 1) by lia. exact X. }
  assert (I : forall k : nat, Z.of_nat k <= top -> y (Z.of_nat k) = k0).
  { induction k as [|k IH]; intros B; [exact Y0|]. specialize (IH ltac:(lia)). set (n := Z.of_nat (Datatypes.S k)) in *.
    assert (OKn : ladder_ok (kmul g g) p n (Z.to_nat (top + 1 - n))).
    { apply (S k n ltac:(lia)). replace (n - Z.of_nat k) with 1 by lia. replace (Z.to_nat (top + 1 - n) + k)%nat with (Z.to_nat top) by lia. exact OK. }
    destruct (y_ladder (Z.to_nat (top + 1 - n)) n ltac:(lia) ltac:(lia) OKn ltac:(lia)) as [_ Z1]. apply Z1. replace (n - 1) with (Z.of_nat k) by lia. exact IH. }
  intros n B. rewrite <- (Z2Nat.id n) by lia. apply I. lia.
Qed.
End Solution.

(** * Clouds of at most one site *)
Lemma space_is_one : forall a, M = 1 -> space m ae a -> exists n, a = one n /\ 1 <= n <= top.
Proof.
  intros a M1 Sa. pose proof Sa as Sa'. destruct (space_unfold m ae a Sa) as [V [_ [_ [_ [N1 [[z [Sh Hz]] [Ti [_ [He _]]]]]]]]].
  rewrite (ho_types _ _ _ _ _ H) in *. destruct (Ti 0%nat ltac:(lia)) as [[t [x [Lx [X0 Ox]]]] [t' [x' [Lx' [X0' Ox']]]]].
  assert (T0 : forall t x, occ a t x <> 0 -> t = 0%nat).
  { intros t0 x0 O0. destruct t0 as [|t0]; [reflexivity|exfalso; apply O0]. unfold occ, at_. rewrite Sh. cbn [inb].
    replace (Z.of_nat (S t0) <? Z.of_nat 1) with false by (symmetry; apply Z.ltb_ge; lia). rewrite andb_false_r. reflexivity. }
  assert (t = 0%nat) as -> by (apply (T0 t x); lia). assert (t' = 0%nat) as -> by (apply (T0 t' x'); lia).
  destruct (He 0%nat ltac:(lia)) as [_ X]. specialize (X x' x ltac:(lia) ltac:(lia)). rewrite (ho_pe _ _ _ _ _ H), M1 in X. cbn [nth] in X.
  destruct x as [|x [|]]; try (rewrite N1 in Lx; discriminate Lx). destruct x' as [|x' [|]]; try (rewrite N1 in Lx'; discriminate Lx'). rewrite Sh in X0'. cbn in X, X0, X0'.
  assert (z = 1%nat) as -> by lia. destruct V as [W _]. unfold wf in W. rewrite Sh in W. cbn in W.
  destruct a as [sh da]. cbn in Sh, W. subst sh. destruct da as [|n [|]]; try discriminate W. exists n. split; [reflexivity|]. apply space_one. exact Sa'.
Qed.

Lemma reached_is_0 : forall a d, M = 1 -> space m ae a -> reached m ae a d -> d = 0.
Proof.
  intros a d M1 Sa [[h0 [Hh [_ [_ ->]]]]|[b [h0 [x [s0 [Sb [Hh [Ax [Mb ->]]]]]]]]].
  - destruct Ht as [E _]. rewrite E in Hh. destruct Hh as [<-|[<-|[]]]; [apply h_is|apply h'_is].
  - assert (HI : phi1 h0 = 0 /\ ht_index h0 = 0%nat) by (destruct Ht as [E _]; rewrite E in Hh; destruct Hh as [<-|[<-|[]]]; [split; apply h_is|split; apply h'_is]).
    destruct HI as [P1 I]. destruct (space_is_one b M1 Sb) as [n [-> B]]. pose proof (acts_elsewhere h0 n x M1 I B Ax) as ->.
    destruct (space_is_one a M1 Sa) as [n' [-> B']]. rewrite I in Mb.
    assert (T1 : n' = n + sgn h0).
    { pose proof (modified_total (one n) (one n') _ _ _ _ (valid_wf _ (valid_one n ltac:(lia))) (valid_wf _ (valid_one n' ltac:(lia))) ltac:(cbn; lia) Mb eq_refl) as X. rewrite !total_one in X. exact X. }
    subst n'.
    assert (NF : ~ phonon_free (one (n + sgn h0))) by (intros Fr; apply free_one in Fr; lia).
    destruct (modified_unique (one n) _ _ _ _ _ _ _ (valid_one n ltac:(lia)) (valid_one (n + sgn h0) ltac:(lia)) (valid_one (n + sgn h0) ltac:(lia)) NF NF Mb (modified_one n (sgn h0))) as [_ E].
    rewrite P1. assert (s0 = 0) as -> by congruence. reflexivity.
Qed.

Lemma one_regular : M = 1 -> ph e [0] = k1 -> ladder_ok (kmul g g) p 1 (Z.to_nat top) -> ksub k1 (kmul (G0 e) (ladder (kmul g g) p 1 (Z.to_nat top))) <> k0 ->
  forall u, proper u -> conditions m ae e u k0 -> u (vac m, [0]) = k0 /\ forall a d, space m ae a -> reached m ae a d -> u (a, [d]) = k0.
Proof.
  intros M1 P0 OK NZ u Pu Cn. pose proof (y_closed u k0 Pu P0 Cn OK) as E.
  assert (Z0 : u (vac m, [0]) = k0).
  { set (D := ksub k1 (kmul (G0 e) (ladder (kmul g g) p 1 (Z.to_nat top)))) in *. transitivity (kmul (kmul (kinv D) D) (u (vac m, [0]))); [rewrite (kinv_l F D NZ); ring|].
    transitivity (kmul (kinv D) (kmul D (u (vac m, [0])))); [ring|]. fold D in E. rewrite E. ring. }
  split; [exact Z0|]. intros a d Sa R. rewrite (reached_is_0 a d M1 Sa R). destruct (space_is_one a M1 Sa) as [n [-> B]].
  rewrite vac_one in Z0. apply (y_zero u k0 Pu P0 Cn OK Z0 n). lia.
Qed.
End Ladder.
