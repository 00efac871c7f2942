(** Proofs about the sign of the hopping (C84). *)
From Coq Require Import String ZArith List Bool Lia Permutation Ring.
From Verif Require Import Base NdArray NdArray_proofs Config Spec Spec_ops Config_proofs Modify_proofs Legal_proofs
  Model HModel Space Spec_space Space_proofs Count_proofs Render Render_proofs Term Equation System Spec_engine
  Term_proofs Equation_proofs System_proofs Prime_proofs Engine_proofs Order_proofs Ring Coef Spec_eom Eom_proofs
  Solvers Spec_solve Sysok_proofs Sparse_proofs Spec_model Spec_sym Rows_proofs Sym_proofs Spec_spectral Period_proofs Spec_neghop.
Import ListNotations.
Open Scope list_scope.
Open Scope Z_scope.

(** * The equations do not contain the hopping *)
Lemma hop_prime : forall {T} ord (x : T) m, prime_system ord (with_hop x m) =
  match prime_system ord m with Ok s => Ok (mkSys (with_hop x m) (s_gen s) (s_fargs s) (s_eqs s)) | Err z => Err z end.
Proof.
  intros T ord x m. unfold prime_system.
  assert (E1 : generate_space (with_hop x m) = generate_space m) by reflexivity.
  assert (E2 : forall l, generalized ord (with_hop x m) l = generalized ord m l) by reflexivity.
  rewrite E1. destruct (generate_space m) as [l|]; [|reflexivity]. cbn [bind]. rewrite E2.
  destruct (generalized ord m l) as [[gen fl]|]; [|reflexivity]. cbn [bind]. destruct (full_equations fl gen) as [q|]; [|reflexivity]. cbn [bind].
  destruct (final_checks q); reflexivity.
Qed.

Lemma prime_model : forall {T} ord (m : model T) s, prime_system ord m = Ok s -> s_model s = m.
Proof.
  intros T ord m s E. unfold prime_system in E. destruct (generate_space m) as [l|]; [|discriminate]. cbn [bind] in E.
  destruct (generalized ord m l) as [[gen fl]|]; [|discriminate]. cbn [bind] in E. destruct (full_equations fl gen) as [q|]; [|discriminate]. cbn [bind] in E.
  destruct (final_checks q); [|discriminate]. injection E as <-. reflexivity.
Qed.

Lemma hop_greens : forall {T} {K : cring} (e : env T K) sp ord x m, greens e sp ord (with_hop x m) = greens e sp ord m.
Proof.
  intros T K e sp ord x m. unfold greens. rewrite hop_prime. destruct (prime_system ord m) as [s|] eqn:E; [|reflexivity]. pose proof (prime_model ord m s E) as M. cbn [bind].
  destruct s as [m' gen fl eqs]. cbn [s_model] in M. subst m'. reflexivity.
Qed.

Lemma hop_regular : forall {T} {K : cring} (e : env T K) ord x m, regular_at e ord m <-> regular_at e ord (with_hop x m).
Proof.
  intros T K e ord x m. unfold regular_at. split.
  - intros [s [X [v [E H]]]]. exists (mkSys (with_hop x m) (s_gen s) (s_fargs s) (s_eqs s)), X, v. rewrite hop_prime, E. split; [reflexivity|].
    pose proof (prime_model ord m s E) as M. destruct s as [m' gen fl eqs]. cbn [s_model] in M. subst m'. exact H.
  - intros [s [X [v [E H]]]]. rewrite hop_prime in E. destruct (prime_system ord m) as [s'|] eqn:E'; [|discriminate]. injection E as <-. exists s', X, v. split; [reflexivity|].
    pose proof (prime_model ord m s' E') as M. destruct s' as [m' gen fl eqs]. cbn [s_model] in M. subst m'. exact H.
Qed.

Lemma hop_good : forall {T} (x : T) m ae, good_model m ae -> good_model (with_hop x m) ae.
Proof. intros T x m ae [W A A1 MP PE PN FR IX PH PS PL MI DT]. constructor; assumption. Qed.

(** * Changing the free particle's Green's function *)
Section Dress.
Context {T : Type} {K : cring}.
Add Ring KRnh : (klaws K).
Variables (m : model T) (ae : Z).
Hypothesis G : good_model m ae.
Let ops := h_terms (m_ham m).

Definition comb (a b : K) (u v : nd * list Z -> K) (p : nd * list Z) : K := kadd (kmul a (u p)) (kmul b (v p)).

Lemma comb_proper : forall a b u v, proper u -> proper v -> proper (comb a b u v).
Proof. intros a b u v Pu Pv c c' d V V' F F'. unfold comb. rewrite (Pu c c' d V V' F F'), (Pv c c' d V V' F F'). reflexivity. Qed.

Lemma comb_sum : forall {A} a b (f g h : A -> K) l, (forall x, h x = kadd (kmul a (f x)) (kmul b (g x))) ->
  ksum (map h l) = kadd (kmul a (ksum (map f l))) (kmul b (ksum (map g l))).
Proof.
  intros A a b f g h l H. induction l as [|x l IH]; cbn [map]; unfold ksum in *; cbn [fold_right]; [ring|]. rewrite IH, H. ring.
Qed.

Lemma comb_conditions : forall (e : env T K) a b u v g h, conditions m ae e u g -> conditions m ae e v h ->
  conditions m ae e (comb a b u v) (kadd (kmul a g) (kmul b h)).
Proof.
  intros e a b u v g h [U1 U2] [V1 V2]. split.
  - intros c d l Sc R El. specialize (U1 c d l Sc R El). specialize (V1 c d l Sc R El). fold ops in U1, V1. fold ops.
    rewrite (comb_sum a b (fun h => ksum (map (summand e u l c d h) (st m ae c h))) (fun h => ksum (map (summand e v l c d h) (st m ae c h)))).
    + unfold comb. transitivity (kadd (kmul a k0) (kmul b (k0 : K))); [|ring]. rewrite <- U1 at 1. rewrite <- V1. ring.
    + intros o. apply comb_sum. intros x. unfold summand, jump, comb. destruct (_ =? 0); ring.
  - rewrite <- U2, <- V2. rewrite (comb_sum a b (gsummand e u (m_ntypes m)) (gsummand e v (m_ntypes m))); [unfold comb; ring|].
    intros o. unfold gsummand, comb. ring.
Qed.

(** The sum over creations without the free Green's function. *)
Definition cloud (e : env T K) (u : nd * list Z -> K) : K :=
  ksum (map (fun h => kmul (kmul (kmul (ev e (ht_coupling h)) (kz 1)) (ph e [psi1 h - phi1 h])) (u (single_phonon (m_ntypes m) 1 (ht_index h), [phi1 h]))) (filter creation ops)).

Lemma cloud_sum : forall (e : env T K) u, ksum (map (gsummand e u (m_ntypes m)) (filter creation ops)) = kmul (G0 e) (cloud e u).
Proof. intros e u. unfold cloud. rewrite <- ksum_scal. apply ksum_ext. intros h _. unfold gsummand. ring. Qed.

Lemma cloud_comb : forall e a b u v, cloud e (comb a b u v) = kadd (kmul a (cloud e u)) (kmul b (cloud e v)).
Proof. intros e a b u v. unfold cloud. apply comb_sum. intros h. unfold comb. ring. Qed.

Section Two.
Variables e e' : env T K.
Hypothesis D : redressed e e'.

Lemma cloud_same : forall u, cloud e' u = cloud e u.
Proof. intros u. unfold cloud. apply ksum_ext. intros h _. rewrite (rd_ev _ _ D), (rd_ph _ _ D). reflexivity. Qed.

Lemma dress_conditions : forall u g, conditions m ae e' u g -> conditions m ae e u (kadd (u (vac m, [0])) (kmul (G0 e) (cloud e u))).
Proof.
  intros u g [C1 _]. split; [|fold ops; rewrite cloud_sum; reflexivity].
  intros a d l Sa R El. rewrite <- (C1 a d l Sa R El). f_equal. apply ksum_ext. intros h _. apply ksum_ext. intros x _.
  unfold summand, jump. rewrite (rd_ev _ _ D), !(rd_ph _ _ D), (rd_g0 _ _ D). reflexivity.
Qed.

Lemma dressing : forall u u',
  (forall w, proper w -> conditions m ae e w k0 -> w (vac m, [0]) = k0) ->
  proper u -> proper u' -> conditions m ae e u (G0 e) -> conditions m ae e' u' (G0 e') ->
  (forall x, kmul x (u (vac m, [0])) = k0 -> x = k0) ->
  kmul (kmul (ksub (G0 e') (G0 e)) (u (vac m, [0]))) (u' (vac m, [0])) = kmul (kmul (G0 e) (G0 e')) (ksub (u' (vac m, [0])) (u (vac m, [0]))).
Proof.
  intros u u' NS Pu Pu' C C' CA. set (g := u (vac m, [0])) in *. set (g' := u' (vac m, [0])) in *.
  pose proof (dress_conditions u' _ C') as C2. fold g' in C2.
  set (w := comb g' (kopp g) u u').
  assert (Cw : conditions m ae e w (kmul (G0 e) (cloud e w))).
  { pose proof (comb_conditions e g' (kopp g) u u' _ _ C C2) as Cc. fold w in Cc.
    replace (kmul (G0 e) (cloud e w)) with (kadd (kmul g' (G0 e)) (kmul (kopp g) (kadd g' (kmul (G0 e) (cloud e u'))))); [exact Cc|].
    destruct C as [_ C]. fold ops in C. rewrite cloud_sum in C. fold g in C. unfold w. rewrite cloud_comb. rewrite <- C at 1. ring. }
  assert (Z : cloud e w = k0).
  { apply CA. pose proof (comb_conditions e k1 (kopp (cloud e w)) w u _ _ Cw C) as Cd.
    replace (kadd (kmul k1 (kmul (G0 e) (cloud e w))) (kmul (kopp (cloud e w)) (G0 e))) with (k0 : K) in Cd by ring.
    pose proof (NS _ (comb_proper _ _ _ _ (comb_proper _ _ _ _ Pu Pu') Pu) Cd) as E. change (kadd (kmul k1 (w (vac m, [0]))) (kmul (kopp (cloud e w)) g) = k0) in E.
    assert (W0 : w (vac m, [0]) = k0) by (unfold w, comb; fold g g'; ring). rewrite W0 in E.
    transitivity (kopp (kadd (kmul k1 k0) (kmul (kopp (cloud e w)) g))); [ring|]. rewrite E. ring. }
  unfold w in Z. rewrite cloud_comb in Z.
  destruct C as [_ C]. fold ops in C. rewrite cloud_sum in C. fold g in C.
  destruct C' as [_ C']. fold ops in C'. rewrite cloud_sum, cloud_same in C'. fold g' in C'.
  assert (H : kmul (kmul (G0 e) (G0 e')) (kadd (kmul g' (cloud e u)) (kmul (kopp g) (cloud e u'))) = k0) by (rewrite Z; ring).
  set (a := cloud e u) in *. set (b := cloud e u') in *. set (x := G0 e) in *. set (y := G0 e') in *.
  assert (Ea : kmul x a = ksub x g) by (rewrite <- C at 2; ring). assert (Eb : kmul y b = ksub y g') by (rewrite <- C' at 2; ring).
  assert (H' : ksub (kmul (kmul g' y) (kmul x a)) (kmul (kmul g x) (kmul y b)) = k0) by (rewrite <- H; ring). rewrite Ea, Eb in H'.
  transitivity (kadd (kmul (kmul (ksub y x) g) g') (ksub (kmul (kmul g' y) (ksub x g)) (kmul (kmul g x) (ksub y g')))); [rewrite H'; ring|ring].
Qed.
End Two.
End Dress.

(** * Signs of sites *)
Section Signs.
Context {T : Type} {K : cring}.
Add Ring KRns : (klaws K).
Variable x : Z -> K.
Hypothesis SS : site_sign x.

Lemma sign_inv : forall d, kmul (x (- d)) (x d) = k1.
Proof. intros d. rewrite <- (ss_add _ SS), Z.add_opp_diag_l. apply SS. Qed.

Lemma sign_sites : forall y, x (2 * y) = if Z.odd y then kopp k1 else k1.
Proof.
  apply (Z.bi_induction (fun y => x (2 * y) = if Z.odd y then kopp k1 else k1)).
  - intros a b ->. reflexivity.
  - apply SS.
  - intros y. replace (2 * Z.succ y) with (2 * y + 2) by lia. rewrite (ss_add _ SS), (ss_2 _ SS), Z.odd_succ, <- Z.negb_odd. split; intros H.
    + rewrite H. destruct (Z.odd y); cbn [negb]; ring.
    + transitivity (kopp (kmul (x (2 * y)) (kopp k1))); [ring|]. rewrite H. destruct (Z.odd y); cbn [negb]; ring.
Qed.

Lemma sign_back : forall y, x (- (2 * y)) = x (2 * y).
Proof. intros y. replace (- (2 * y)) with (2 * (- y)) by lia. rewrite !sign_sites, Z.odd_opp. reflexivity. Qed.
End Signs.

Lemma kmul_0_r_any : forall {K : cring} (a : K), kmul a k0 = k0.
Proof. intros K a. pose proof (klaws K) as L. rewrite (Rmul_comm L). pose proof (ARmul_0_l (Rth_ARth (Eqsth K) (Eq_ext kadd kmul kopp) L)) as Z. apply Z. Qed.

Section Gauge.
Context {T : Type} {K : cring}.
Add Ring KRng : (klaws K).
Variables (m : model T) (ae : Z) (c : Z) (f : nat -> bool).
Hypothesis G : good_model m ae.
Hypothesis Hlat : on_lattice m c.
Hypothesis Hmov : moves f m.
Let ops := h_terms (m_ham m).

Definition signu (x : Z -> K) (u : nd * list Z -> K) (p : nd * list Z) : K := kmul (kmul (x (hd 0 (snd p))) (sgnf f (fst p))) (u p).

Lemma signu_proper : forall x u, proper u -> proper (signu x u).
Proof.
  intros x u Pu a a' d V V' F0 F0'. unfold signu. cbn [fst snd]. rewrite (sgnf_free f a V F0), (sgnf_free f a' V' F0'), (Pu a a' d V V' F0 F0'). reflexivity.
Qed.

Lemma signu_vac : forall x u, site_sign x -> signu x u (vac m, [0]) = u (vac m, [0]).
Proof.
  intros x u S. unfold signu. cbn [fst snd hd]. destruct (vac_valid m) as [V [T0 _]]. rewrite (sgnf_free f (vac m) V (proj1 (valid_total_free _ V) T0)), (ss_0 _ S). ring.
Qed.

Lemma signu_forth : forall x u p, site_sign x -> signu x (signu (fun d => x (- d)) u) p = u p.
Proof.
  intros x u p S. unfold signu. transitivity (kmul (kmul (kmul (x (- hd 0 (snd p))) (x (hd 0 (snd p)))) (kmul (sgnf f (fst p)) (sgnf f (fst p)))) (u p)); [ring|].
  rewrite (sign_inv x S), sgnf_sq. ring.
Qed.

Section Pair.
Variables (x : Z -> K) (e e' : env T K).
Hypothesis SS : site_sign x.
Hypothesis S : sign_changed x e e'.

Lemma psi_sign : forall h, In h ops -> x (psi1 h) = if f (ht_index h) then kopp k1 else k1.
Proof. intros h Hh. destruct (Hmov h Hh) as [y [-> ->]]. apply sign_sites. exact SS. Qed.

Lemma sign_summand : forall u a h s l d, space m ae a -> In h ops -> acts_at m ae a h [s] -> reached m ae a d ->
  summand e' (signu x u) l a d h s = kmul (kmul (x d) (sgnf f a)) (summand e u l a d h s).
Proof.
  intros u a h s l d Sa Hh A R.
  destruct (next_spec m ae G a h s Sa Hh A) as [Vn [M [Tn _]]]. destruct (space_unfold m ae a Sa) as [Va [_ [_ [NT [N1 _]]]]].
  set (sc := if f (ht_index h) then kopp k1 else (k1 : K)).
  assert (SG : sgnf f (fst (next a h s)) = kmul sc (sgnf f a)).
  { eapply sgnf_modified; [exact Va|exact Vn|exact M|rewrite N1; reflexivity|rewrite NT; apply (gm_index _ _ G h Hh)|]. unfold sgn. destruct (ht_dag h); auto. }
  assert (J : jump e' (signu x u) (next a h s) (phi1 h - 2 * s) = kmul (kmul (x (phi1 h - 2 * s)) (kmul sc (sgnf f a))) (jump e u (next a h s) (phi1 h - 2 * s))).
  { unfold jump, signu. cbn [fst snd hd]. rewrite SG. destruct (_ =? 0).
    - rewrite (sn_ph _ _ _ S), (ss_0 _ SS). ring.
    - rewrite (sn_ph _ _ _ S). set (y := phi1 h - 2 * s). set (z := snd (next a h s)).
      transitivity (kmul (kmul (kmul (x (-2 * z)) (x (y + 2 * z))) (kmul sc (sgnf f a))) (kmul (ph e [-2 * z]) (u (fst (next a h s), [y + 2 * z])))); [ring|].
      rewrite <- (ss_add _ SS). replace (-2 * z + (y + 2 * z)) with y by lia. ring. }
  unfold summand. rewrite J, (sn_ev _ _ _ S).
  destruct (Hlat h Hh) as [[y Ey] [y' Ey']]. destruct (reached_even m ae c a d Hlat R) as [y'' Ey''].
  assert (Ed : psi1 h - phi1 h + 2 * s + d = 2 * (y - y' + s + y'')) by lia. rewrite Ed at 1. rewrite (sn_g0 _ _ _ S), <- Ed.
  replace (psi1 h - phi1 h + 2 * s + d) with (psi1 h + d + - (phi1 h - 2 * s)) at 1 by lia. rewrite !(ss_add _ SS), (psi_sign h Hh). fold sc.
  set (p := phi1 h - 2 * s).
  transitivity (kmul (kmul (kmul sc sc) (kmul (x (- p)) (x p))) (kmul (kmul (x d) (sgnf f a)) (kmul (kmul (kmul (ev e (ht_coupling h)) (kz (multi a h s))) (g0 e [psi1 h - phi1 h + 2 * s + d] l)) (jump e u (next a h s) p)))); [ring|].
  rewrite (sign_inv x SS). assert (SQ : kmul sc sc = k1) by (unfold sc; destruct (f _); ring). rewrite SQ. ring.
Qed.

Lemma single_sign : forall h, In h ops -> sgnf f (single_phonon (m_ntypes m) 1 (ht_index h)) = if f (ht_index h) then kopp k1 else (k1 : K).
Proof.
  intros h Hh. pose proof (gm_index _ _ G h Hh) as Hi. destruct (single_phonon_valid (m_ntypes m) 1 (ht_index h) Hi ltac:(lia)) as [Vs _].
  destruct (vac_valid m) as [Vv [Tv Nv]]. assert (Ns : ndim (single_phonon (m_ntypes m) 1 (ht_index h)) = 1%nat) by reflexivity.
  assert (M : modified_by (vac m) (single_phonon (m_ntypes m) 1 (ht_index h)) [0] (ht_index h) [0] 1).
  { split; [reflexivity|]. split; [reflexivity|]. split; [reflexivity|]. intros t z Lx. rewrite Nv in Lx. rewrite single_phonon_occ by assumption.
    assert (F0 : phonon_free (vac m)) by (apply valid_total_free; assumption). rewrite F0. destruct z as [|y [|]]; try discriminate.
    cbn [addv zerov repeat]. rewrite Z.add_0_r. reflexivity. }
  rewrite (sgnf_modified f _ _ _ _ _ 1 Vv Vs M); [|reflexivity|exact Hi|auto].
  rewrite (sgnf_free f (vac m) Vv); [ring|apply valid_total_free; assumption].
Qed.

Lemma sign_green : forall u h, In h ops -> gsummand e' (signu x u) (m_ntypes m) h = gsummand e u (m_ntypes m) h.
Proof.
  intros u h Hh. unfold gsummand, signu. cbn [fst snd hd]. rewrite (single_sign h Hh), (sn_ev _ _ _ S), (sn_ph _ _ _ S), (sn_G0 _ _ _ S).
  set (sc := if f (ht_index h) then kopp k1 else (k1 : K)). set (w := u (single_phonon (m_ntypes m) 1 (ht_index h), [phi1 h])).
  transitivity (kmul (kmul (kmul (x (psi1 h - phi1 h)) (x (phi1 h))) sc) (kmul (kmul (kmul (ev e (ht_coupling h)) (kz 1)) (kmul (G0 e) (ph e [psi1 h - phi1 h]))) w)); [ring|].
  rewrite <- (ss_add _ SS), Z.sub_add, (psi_sign h Hh). fold sc. assert (SQ : kmul sc sc = k1) by (unfold sc; destruct (f _); ring). rewrite SQ. ring.
Qed.

Lemma sign_conditions : forall u g, conditions m ae e u g -> conditions m ae e' (signu x u) g.
Proof.
  intros u g [C1 C2]. split.
  - intros a d l Sa R El. specialize (C1 a d l Sa R El). fold ops in C1. fold ops.
    transitivity (kmul (kmul (x d) (sgnf f a)) (kadd (u (a, [d])) (ksum (map (fun h => ksum (map (summand e u l a d h) (st m ae a h))) ops)))); [|rewrite C1; ring].
    assert (E : ksum (map (fun h => ksum (map (summand e' (signu x u) l a d h) (st m ae a h))) ops) =
      kmul (kmul (x d) (sgnf f a)) (ksum (map (fun h => ksum (map (summand e u l a d h) (st m ae a h))) ops))).
    { rewrite <- ksum_scal. apply ksum_ext. intros h Hh. rewrite <- ksum_scal. apply ksum_ext. intros y Hy. apply (st_spec m ae G a h Sa Hh) in Hy. apply sign_summand; assumption. }
    rewrite E. unfold signu. cbn [fst snd hd]. ring.
  - rewrite <- C2. f_equal; [apply signu_vac; exact SS|]. apply ksum_ext. intros h Hh. apply filter_In in Hh. apply sign_green. apply Hh.
Qed.
End Pair.

Lemma back_sign : forall x : Z -> K, site_sign x -> site_sign (fun d => x (- d)).
Proof.
  intros x S. constructor.
  - apply S.
  - intros a b. replace (- (a + b)) with (- a + - b) by lia. apply S.
  - change (x (- (2 * 1)) = kopp k1). rewrite (sign_back x S). apply S.
Qed.
Lemma back_signed : forall (x : Z -> K) (e e' : env T K), site_sign x -> sign_changed x e e' -> sign_changed (fun d => x (- d)) e' e.
Proof.
  intros x e e' SS [E1 E2 E3 E4]. constructor; auto.
  - intros d. rewrite E2. transitivity (kmul (kmul (x (- d)) (x d)) (ph e [d])); [|ring]. rewrite (sign_inv x SS). ring.
  - intros d l. rewrite E3. transitivity (kmul (kmul (x (- (2 * d))) (x (2 * d))) (g0 e [2 * d] l)); [|ring]. rewrite (sign_inv x SS). ring.
Qed.
End Gauge.

Lemma sign_result : forall {T} {K : cring} (m : model T) ae c f x ord ord' s s' (e e' : env T K) sp X v X' v',
  good_model m ae -> on_lattice m c -> moves f m -> site_sign x -> sign_changed x e e' ->
  (forall k l, Permutation (ord k l) l) -> (forall k l, Permutation (ord' k l) l) ->
  prime_system ord m = Ok s -> prime_system ord' m = Ok s' ->
  scaffold e (full_basis s) s = Ok (X, v) -> scaffold e' (full_basis s') s' = Ok (X', v') ->
  nonsingular X -> nonsingular X' /\ (solves X v (sp X v) -> solves X' v' (sp X' v') -> sparse_solve e' sp s' = sparse_solve e sp s).
Proof.
  intros T K m ae c f x ord ord' s s' e e' sp X v X' v' G L Mv SS S P P' Es Es' E E' NS.
  assert (SB := back_sign x SS).
  assert (NS' : nonsingular X').
  { apply (same_regular m m ae ae G G ord ord' s s' P P' Es Es' e e' X v X' v' E E' NS). intros u' Pu' C'.
    exists (signu f (fun d => x (- d)) u'). split; [apply signu_proper; exact Pu'|].
    split; [exact (sign_conditions m ae c f G L Mv (fun d => x (- d)) e' e SB (back_signed x e e' SS S) u' k0 C')|].
    assert (B : forall p, signu f x (signu f (fun d => x (- d)) u') p = u' p) by (intros p; apply signu_forth; exact SS).
    intros [Z1 Z2]. split.
    - rewrite <- B. unfold signu at 1. rewrite Z1. apply kmul_0_r_any.
    - intros a d Sa R. rewrite <- B. unfold signu at 1. rewrite (Z2 a d Sa R). apply kmul_0_r_any. }
  split; [exact NS'|]. intros SV SV'.
  apply (same_result m m ae ae G G ord ord' s s' P P' Es Es' e e' sp X v X' v' E E' SV SV' NS').
  intros u Pu C. exists (signu f x u). split; [apply signu_proper; exact Pu|]. split; [rewrite (sn_G0 _ _ _ S); exact (sign_conditions m ae c f G L Mv x e e' SS S u (G0 e) C)|].
  apply signu_vac. exact SS.
Qed.

(** * Models built from supported couplings *)
From Coq Require Import Reals Lra.
From Verif Require Import Cplx Physics Props_Physics Props_Model.
From Verif Require Physics_proofs HModel_proofs Hist_proofs.

Lemma built_moves : forall m fs cs, built Rnum 1 m fs cs -> exists f, moves f m.
Proof.
  intros m fs cs B. pose proof (HModel_proofs.i_terms _ _ _ _ _ (HModel_proofs.built_inv Rnum (proj1 Rnum_ok) 1%nat m fs cs B)) as I.
  assert (EO : forall x : R, ev (phys_env m 0 0 0) (n_opp Rnum x) = kopp (ev (phys_env m 0 0 0) x)) by (intros x; apply Ceq; unfold RtoC, Re, Im; cbn; lra).
  pose proof (Hist_proofs.built_types (K := CR) Rnum (phys_env m 0 0 0) EO (proj1 Rnum_ok) 1%nat m fs cs B) as Q.
  exists (fun t => existsb (fun h => Nat.eqb (ht_index h) t && negb (String.eqb (ht_type h) "Holstein")) (h_terms (m_ham m))).
  intros h Hh.
  assert (E : existsb (fun h' => Nat.eqb (ht_index h') (ht_index h) && negb (String.eqb (ht_type h') "Holstein")) (h_terms (m_ham m)) = negb (String.eqb (ht_type h) "Holstein")).
  { destruct (existsb _ _) eqn:X.
    - apply existsb_exists in X. destruct X as [h' [Hh' X]]. apply andb_true_iff in X. destruct X as [X1 X2]. apply Nat.eqb_eq in X1. rewrite <- (Q h' h Hh' Hh X1). symmetry. exact X2.
    - destruct (String.eqb (ht_type h) "Holstein") eqn:Y; [reflexivity|]. exfalso. assert (Z : existsb (fun h' => Nat.eqb (ht_index h') (ht_index h) && negb (String.eqb (ht_type h') "Holstein")) (h_terms (m_ham m)) = true); [|congruence].
      apply existsb_exists. exists h. split; [exact Hh|]. rewrite Nat.eqb_refl, Y. reflexivity. }
  rewrite E. destruct (I h Hh) as [g [psi [phi [d [s [_ [_ [O [X _]]]]]]]]]. rewrite X. unfold psi1. cbn [ht_psi ht_type v2].
  inversion O; subst; cbn [hd repeat String.eqb Ascii.eqb Bool.eqb negb];
    first [exists 0; split; reflexivity|match goal with H : ?s0 = 1 \/ ?s0 = -1 |- _ => exists s0; split; [reflexivity|destruct H as [-> | ->]; reflexivity] end].
Qed.
