(** The effect of errors in the solution of the linear system (C70). *)
From Coq Require Import String ZArith Reals List Bool Lia Lra Permutation Ring.
From Verif Require Import Base NdArray NdArray_proofs Config Spec Spec_ops Config_proofs Modify_proofs Legal_proofs
  Model HModel Space Spec_space Space_proofs Count_proofs Render Render_proofs Term Equation System Spec_engine
  Term_proofs Equation_proofs System_proofs Prime_proofs Engine_proofs Ring Coef Cplx Physics Spec_eom Eom_proofs Solvers Spec_solve Sparse_proofs Spec_model
  Rows_proofs Spec_spectral Toeplitz_proofs Weight_proofs Energy_proofs Physics_proofs Spectral_proofs Cutoff_proofs Sysok_proofs Spec_stable.
Import ListNotations.
Open Scope list_scope.
Open Scope Z_scope.

Lemma amgm : forall a b wa wb o o' s lam, (0 <= a -> 0 <= b -> 0 < wa -> 0 < wb -> 0 <= o -> wa * o = wb * o' -> o * o' <= s * s -> 0 <= s -> 0 < lam ->
  wa * o * (b * a) <= s * (lam / 2 * (wa * (a * a)) + / (2 * lam) * (wb * (b * b))))%R.
Proof.
  intros a b wa wb o o' s lam Ha Hb Wa Wb Ho E S Hs Hl. set (Y := (lam / 2 * (wa * (a * a)) + / (2 * lam) * (wb * (b * b)))%R).
  assert (HI : (0 < / (2 * lam))%R) by (apply Rinv_0_lt_compat; lra).
  assert (AA : (0 <= a * a)%R) by nra. assert (BB : (0 <= b * b)%R) by nra.
  assert (PY : (0 <= Y)%R).
  { unfold Y. apply Rplus_le_le_0_compat; apply Rmult_le_pos; try lra; apply Rmult_le_pos; lra. }
  assert (Y2 : (wa * wb * (a * a) * (b * b) <= Y * Y)%R).
  { assert (P : (lam / 2 * (wa * (a * a)) * (/ (2 * lam) * (wb * (b * b))) = wa * wb * (a * a) * (b * b) / 4)%R) by (field; lra).
    pose proof (Rle_0_sqr (lam / 2 * (wa * (a * a)) - / (2 * lam) * (wb * (b * b)))) as Q. unfold Rsqr in Q. unfold Y. lra. }
  apply Rsqr_incr_0; [|apply Rmult_le_pos; [apply Rmult_le_pos; lra|apply Rmult_le_pos; assumption]|apply Rmult_le_pos; assumption].
  unfold Rsqr. replace (wa * o * (b * a) * (wa * o * (b * a)))%R with (o * o' * (wa * wb * (a * a) * (b * b)))%R.
  2: { transitivity ((wa * o) * (wa * o) * (a * a) * (b * b))%R; [rewrite E at 2|]; ring. }
  replace (s * Y * (s * Y))%R with (s * s * (Y * Y))%R by ring.
  assert (0 <= wa * wb * (a * a) * (b * b))%R by (repeat apply Rmult_le_pos; lra).
  apply Rle_trans with (s * s * (wa * wb * (a * a) * (b * b)))%R; [apply Rmult_le_compat_r; assumption|apply Rmult_le_compat_l; [nra|assumption]].
Qed.

Section Stable.
Context {T : Type}.
Variable m : model T.
Variable ae : Z.
Hypothesis G : good_model m ae.
Let ops := h_terms (m_ham m).
Variable e : env T CR.
Variable eta : R.
Variable c : Z.
Hypothesis Heta : (0 < eta)%R.
Hypothesis Hherm : hermitian e m.
Hypothesis Hlat : on_lattice m c.
Hypothesis Hph : forall d, ph e [- d] = Cconj (ph e [d]).
Hypothesis Hunit : forall d, Cabs (ph e [d]) = 1%R.
Hypothesis Hg0 : forall l, exists w t, (forall d : Z, Cadd (Cmul (w, eta) (g0 e [2 * d] l)) (Cmul (RtoC t) (Cadd (g0 e [2 * (d + 1)] l) (g0 e [2 * (d - 1)] l)))
   = if Z.eq_dec d 0 then C1 else C0) /\ vanishes (fun d => g0 e [2 * d] l).
Variable z : R.
Hypothesis HG0 : Cmul (G0 e) (z, eta) = C1.
Variable cl : list nd.
Hypothesis ND : NoDup cl.
Hypothesis Hcl : forall a, In a cl <-> space m ae a /\ 1 <= total a.
Variable N : Z.
Hypothesis HN : forall a, space m ae a -> total a <= N.
Hypothesis HN1 : 1 <= N.

(** [u] satisfies the equations up to [r]. *)
Variables u r : nd * list Z -> CR.
Variable gb : CR.
Hypothesis Pu : proper u.
Hypothesis Pr : proper r.
Hypothesis r_vac : r (vac m, [0]) = C0.
Hypothesis Rows : forall a d l, space m ae a -> reached m ae a d -> energy_of (h_freqs (m_ham m)) a l ->
  kadd (u (a, [d])) (ksum (map (fun h => ksum (map (summand e u l a d h) (st m ae a h))) ops)) = r (a, [d]).
Hypothesis Vac : kadd (u (vac m, [0])) (ksum (map (gsummand e u (m_ntypes m)) (filter creation ops))) = gb.

Definition vv : nd * list Z -> CR := fun p => Csub (u p) (r p).

Lemma vv_proper : proper vv.
Proof. intros a a' d V V' F F'. unfold vv. rewrite (Pu a a' d V V' F F'), (Pr a a' d V V' F F'). reflexivity. Qed.

Lemma vv_at : forall a l d, space m ae a -> energy_of (h_freqs (m_ham m)) a l -> reached m ae a d ->
  vv (a, [d]) = U (fun n => g0 e [2 * n] l) (srcs m ae e c u a) ((d - c) / 2).
Proof.
  intros a l d Sa El R. pose proof (Rows a d l Sa R El) as H.
  assert (E : @ksum CR (map (fun h => @ksum CR (map (summand e u l a d h) (st m ae a h))) ops) = Copp (U (fun n => g0 e [2 * n] l) (srcs m ae e c u a) ((d - c) / 2))).
  { unfold U. rewrite (srcs_sum m ae e c u a (fun p => Cmul (fst p) (g0 e [2 * ((d - c) / 2 - snd p)] l))). change Copp with (@kopp CR).
    assert (NEG : forall {A} (f : A -> CR) l0, @kopp CR (ksum (map f l0)) = ksum (map (fun x => @kopp CR (f x)) l0)).
    { intros A f l0. induction l0 as [|y l0 IH]; [apply Ceq; cbn; lra|]. cbn [map]. rewrite !ksum_cons, <- IH. apply Ceq; cbn; unfold Copp, Cadd, Re, Im; cbn; lra. }
    rewrite NEG. apply ksum_ext. intros h Hh. rewrite NEG. apply ksum_ext. intros x _. cbn [fst snd].
    unfold summand, src_at.
    replace [2 * ((d - c) / 2 - (yy h x - c) / 2)] with [psi1 h - phi1 h + 2 * x + d].
    - cbn [kmul kopp CR car]. ring.
    - f_equal. pose proof (yy_parity m e c Hlat Hph h x Hh) as Y. pose proof (reached_parity m ae e c Hlat Hph a d R) as D. unfold yy in *. lia. }
  rewrite E in H. unfold vv. rewrite <- H. change (@kadd CR) with Cadd. generalize (u (a, [d])) (U (fun n => g0 e [2 * n] l) (srcs m ae e c u a) ((d - c) / 2)). change (car CR) with C. intros y1 y2. ring.
Qed.

Definition cross (a : nd) : CR := @ksum CR (map (fun h => @ksum CR (map (fun x => @kmul CR (Cconj (src_at e u a h x)) (vv (a, [yy h x]))) (st m ae a h))) ops).

Lemma cross_sum : forall a, space m ae a -> (Im (cross a) <= - eta * Rsum (map (fun d => Cnorm2 (vv (a, [d]))) (ds m ae a)))%R.
Proof.
  intros a Sa. destruct (space_unfold m ae a Sa) as [_ [_ [_ [NT _]]]].
  destruct (energy_ex (h_freqs (m_ham m)) a) as [l El]; [rewrite NT; apply (gm_freqs _ _ G)|].
  destruct (Hg0 l) as [w [t [Hres Hvan]]].
  assert (DR : forall d, In d (ds m ae a) -> reached m ae a d) by (intros d; apply (ds_reached m ae G e Hherm Hph a); exact Sa).
  assert (E : Im (cross a) = Rsum (map (fun p => Im (Cmul (Cconj (fst p)) (U (fun n => g0 e [2 * n] l) (srcs m ae e c u a) (snd p)))) (srcs m ae e c u a))).
  { rewrite <- (map_map (fun p => Cmul (Cconj (fst p)) (U (fun n => g0 e [2 * n] l) (srcs m ae e c u a) (snd p))) Im), <- Im_sum. f_equal.
    rewrite (srcs_sum m ae e c u a (fun p => Cmul (Cconj (fst p)) (U (fun n => g0 e [2 * n] l) (srcs m ae e c u a) (snd p)))). unfold cross.
    apply ksum_ext. intros h Hh. apply ksum_ext. intros x Hx. cbn [fst snd]. change (@kmul CR) with Cmul. f_equal.
    destruct (st_spec m ae G a h Sa Hh) as [_ S]. apply S in Hx. apply (vv_at a l _ Sa El). eapply yy_reached; eassumption. }
  rewrite E. replace (map (fun d => Cnorm2 (vv (a, [d]))) (ds m ae a)) with (map (fun n => Cnorm2 (U (fun n => g0 e [2 * n] l) (srcs m ae e c u a) n)) (map (fun d => (d - c) / 2) (ds m ae a))).
  - apply (toeplitz_sum (fun n => g0 e [2 * n] l) w eta t Heta Hres Hvan (srcs m ae e c u a)). apply NoDup_map_inj; [|apply NoDup_nodup].
    intros d d' Hd Hd' X. rewrite (reached_parity m ae e c Hlat Hph a d (DR d Hd)), (reached_parity m ae e c Hlat Hph a d' (DR d' Hd')), X. reflexivity.
  - rewrite map_map. apply map_ext_in. intros d Hd. rewrite (vv_at a l d Sa El (DR d Hd)). reflexivity.
Qed.

Definition all : list (nd * Z) := flat_map (fun a => map (fun d => (a, d)) (ds m ae a)) cl.
Definition size (f : nd * list Z -> CR) : R := Rsum (map (mass f) all).

Lemma In_all : forall a d, In (a, d) all <-> space m ae a /\ In d (ds m ae a).
Proof. clear - Hcl.
  intros a d. unfold all. rewrite in_flat_map. split.
  - intros [b [Hb H]]. apply in_map_iff in H. destruct H as [d' [E H]]. assert (b = a) as -> by congruence. assert (d' = d) as -> by congruence. apply Hcl in Hb. tauto.
  - intros [Sa H]. exists a. destruct (space_unfold m ae a Sa) as [_ [_ [Ta _]]]. split; [apply Hcl; split; [exact Sa|lia]|apply in_map; exact H].
Qed.

Lemma NoDup_all : NoDup all.
Proof. clear - ND.
  unfold all. apply NoDup_flat_map; [exact ND| |].
  - intros a _. apply NoDup_map_inj; [intros x y _ _ E; congruence|apply NoDup_nodup].
  - intros a b p _ _ H1 H2. apply in_map_iff in H1, H2. destruct H1 as [x [<- _]], H2 as [y [E _]]. congruence.
Qed.

Lemma size_ge0 : forall f, (0 <= size f)%R.
Proof. intros f. apply Rsum_nonneg. intros. apply mass_ge0. Qed.

(** What the errors contribute. *)
Definition extra (h : hterm T) (p : nd * Z) : CR := Cmul (RtoC (weight (fst p))) (Cmul (Cconj (src_at e r (fst p) h (snd p))) (vv (fst p, [yy h (snd p)]))).
Definition entry_part (h : hterm T) : CR := Cmul (Cmul (ev e (ht_coupling h)) (ph e [psi1 h - phi1 h])) (r (single_phonon (m_ntypes m) 1 (ht_index h), [phi1 h])).

Lemma gsum_linear : @ksum CR (map (gsummand e vv (m_ntypes m)) (filter creation ops)) =
  Csub (@ksum CR (map (gsummand e u (m_ntypes m)) (filter creation ops))) (Cmul (G0 e) (@ksum CR (map entry_part (filter creation ops)))).
Proof.
  change Cmul with (@kmul CR). rewrite <- (ksum_scal (K := CR)). apply ksum_diff. intros h _. unfold gsummand, entry_part, vv.
  change (@kz CR 1) with (Cadd C1 C0). cbn [kmul CR car]. ring.
Qed.

Lemma src_linear : forall a h x, src_at e u a h x = Cadd (src_at e vv a h x) (src_at e r a h x).
Proof.
  intros a h x. unfold src_at, vv. change (fun p => Csub (u p) (r p)) with (diff u r). rewrite jump_diff.
  change (@kmul CR) with Cmul. generalize (jump e u (next a h x) (phi1 h - 2 * x)) (jump e r (next a h x) (phi1 h - 2 * x)). change (car CR) with C. intros y1 y2. ring.
Qed.

Lemma next_cases : forall h a x, space m ae a -> In h ops -> acts_at m ae a h [x] ->
  exists o', (weight a * IZR (multi a h x) = weight (fst (img m h (a, x))) * IZR o')%R /\ 0 <= multi a h x /\ multi a h x * o' <= N /\
  (total (fst (next a h x)) <> 0 -> space m ae (fst (img m h (a, x))) /\ In (snd (img m h (a, x))) (ds m ae (fst (img m h (a, x)))) /\ total (fst (img m h (a, x))) = total a + sgn h).
Proof.
  intros h a x Sa Hh Hx. destruct (op_adjoint m e Hherm h Hh) as [h' [Hh' [A _]]]. pose proof A as [A1 [A2 [A3 A4]]].
  destruct (next_spec m ae G a h x Sa Hh Hx) as [Vb [_ [Tb _]]]. pose proof (total_nonneg _ (valid_wf _ Vb) (valid_nonneg _ Vb)) as NNb.
  destruct (space_unfold m ae a Sa) as [Va _]. pose proof (HN a Sa) as Na.
  unfold img. cbn [fst snd]. destruct (Z.eqb_spec (total (fst (next a h x))) 0) as [E|E]; cbn [fst snd].
  - exists 1. destruct (step_vacuum m ae G a h x Sa Hh Hx E) as [_ [_ [_ [Mu We]]]]. rewrite Mu, We. destruct (vac_valid m) as [V [T0 _]].
    rewrite weight_free by (apply valid_total_free; assumption). split; [lra|]. split; [lia|]. split; [lia|]. intros X. contradiction.
  - destruct (step_back m ae G a h h' x Sa Hh Hh' A Hx ltac:(lia)) as [Sb [Hx' [_ WW]]]. exists (multi (fst (next a h x)) h' (x - snd (next a h x))).
    split; [symmetry; exact WW|]. unfold multi. rewrite A3. destruct (ht_dag h) eqn:D; cbn [flip].
    + split; [lia|]. split.
      * pose proof (occ_total _ (ht_index h') [x - snd (next a h x)] Vb). pose proof (HN _ Sb). lia.
      * intros _. split; [exact Sb|]. split; [|lia]. apply (In_ds m ae G); [exact Sb|]. exists h', (x - snd (next a h x)). split; [exact Hh'|]. split; [exact Hx'|]. unfold yy. lia.
    + pose proof (occ_total a (ht_index h) [x] Va). assert (P0 : 0 <= occ a (ht_index h) [x]) by (destruct Va as [_ [_ [K _]]]; apply K). split; [exact P0|]. split; [lia|].
      intros _. split; [exact Sb|]. split; [|lia]. apply (In_ds m ae G); [exact Sb|]. exists h', (x - snd (next a h x)). split; [exact Hh'|]. split; [exact Hx'|]. unfold yy. lia.
Qed.

Let sN := sqrt (IZR N).
Lemma sN_sq : (sN * sN = IZR N)%R.
Proof. apply sqrt_sqrt. apply IZR_le. lia. Qed.
Lemma sN_ge1 : (1 <= sN)%R.
Proof. unfold sN. rewrite <- sqrt_1. apply sqrt_le_1_alt. apply IZR_le. lia. Qed.

Variable lam : R.
Hypothesis Hlam : (0 < lam)%R.

Lemma extra_term : forall h a x, space m ae a -> In h ops -> acts_at m ae a h [x] ->
  (Cabs (extra h (a, x)) <= Cabs (ev e (ht_coupling h)) * (sN * (lam / 2 * mass vv (a, yy h x) + / (2 * lam) * mass r (img m h (a, x)))))%R.
Proof.
  intros h a x Sa Hh Hx. destruct (next_cases h a x Sa Hh Hx) as [o' [W [P0 [B _]]]].
  unfold extra, src_at. cbn [fst snd]. rewrite kz_R. change (@kmul CR) with Cmul. rewrite !Cabs_mul, Cabs_conj, Cabs_opp, !Cabs_mul, !Cabs_R.
  rewrite (jump_img m ae G e Hunit r Pr h a x Sa Hh Hx). unfold mass. cbn [fst snd]. rewrite <- !Cabs_sq.
  set (va := Cabs (vv (a, [yy h x]))). set (rb := Cabs (r (fst (img m h (a, x)), [snd (img m h (a, x))]))). set (g := Cabs (ev e (ht_coupling h))).
  pose proof (weight_pos a) as WP. pose proof (weight_pos (fst (img m h (a, x)))) as WP'. rewrite (Rabs_right (weight a)) by lra.
  assert (P0' : (0 <= IZR (multi a h x))%R) by (apply IZR_le; exact P0). rewrite (Rabs_right (IZR (multi a h x))) by lra.
  assert (B' : (IZR (multi a h x) * IZR o' <= sN * sN)%R) by (rewrite sN_sq, <- mult_IZR; apply IZR_le; exact B).
  pose proof (amgm va rb _ _ _ _ sN lam (Cabs_ge0 _) (Cabs_ge0 _) WP WP' P0' W B' ltac:(pose proof sN_ge1; lra) Hlam) as K.
  assert (Pg : (0 <= g)%R) by apply Cabs_ge0.
  replace (weight a * (g * IZR (multi a h x) * rb * va))%R with (g * (weight a * IZR (multi a h x) * (rb * va)))%R by ring.
  apply Rmult_le_compat_l; assumption.
Qed.

Lemma first_sum : forall h, In h ops -> (Rsum (map (fun p => mass vv (fst p, yy h (snd p))) (pairs m ae cl h)) <= size vv)%R.
Proof.
  intros h Hh. rewrite <- (map_map (fun p => (fst p, yy h (snd p))) (mass vv)). apply Rsum_incl.
  - apply NoDup_map_inj; [|apply (NoDup_pairs m ae G 1 cl ND Hcl h Hh)].
    intros [a x] [b y] _ _ E. cbn [fst snd] in E. assert (E1 : a = b) by congruence. assert (E2 : yy h x = yy h y) by congruence. unfold yy in E2. rewrite E1. f_equal. lia.
  - intros p Hp. apply in_map_iff in Hp. destruct Hp as [[a x] [<- Hp]]. apply (In_pairs m ae G 1 cl Hcl h _ Hh) in Hp. cbn [fst snd] in *. destruct Hp as [Sa [_ Hx]].
    apply In_all. split; [exact Sa|]. apply (In_ds m ae G a _ Sa). eauto.
  - intros. apply mass_ge0.
Qed.

Definition nonvac (h : hterm T) (p : nd * Z) : bool := negb (total (fst (next (fst p) h (snd p))) =? 0).

Lemma mass_vac : mass r (vac m, 0) = 0%R.
Proof. unfold mass. cbn [fst snd]. rewrite r_vac. unfold Cnorm2, C0, Re, Im. cbn [fst snd]. ring. Qed.

Lemma vac_filter : forall h l, Rsum (map (fun p => mass r (img m h p)) l) = Rsum (map (fun p => mass r (img m h p)) (filter (nonvac h) l)).
Proof.
  intros h l. induction l as [|p l IH]; [reflexivity|]. cbn [filter]. rewrite Rsum_cons, IH. unfold nonvac at 2.
  destruct (Z.eqb_spec (total (fst (next (fst p) h (snd p)))) 0) as [E|E]; cbn [negb]; [|rewrite Rsum_cons; reflexivity].
  unfold img at 1. rewrite (proj2 (Z.eqb_eq _ 0) E), mass_vac. lra.
Qed.

Lemma second_sum : forall h, In h ops ->
  (Rsum (map (fun p => mass r (img m h p)) (pairs m ae cl h)) + (if creation h then mass r (single_phonon (m_ntypes m) 1 (ht_index h), phi1 h) else 0) <= size r)%R.
Proof.
  intros h Hh. destruct (op_adjoint m e Hherm h Hh) as [h' [Hh' [A _]]]. pose proof A as [A1 [A2 [A3 A4]]].
  rewrite vac_filter. set (L := (map (img m h) (filter (nonvac h) (pairs m ae cl h)) ++ if creation h then [(single_phonon (m_ntypes m) 1 (ht_index h), phi1 h)] else [])%list).
  assert (EL : Rsum (map (mass r) L) = (Rsum (map (fun p => mass r (img m h p)) (filter (nonvac h) (pairs m ae cl h))) + (if creation h then mass r (single_phonon (m_ntypes m) 1 (ht_index h), phi1 h) else 0))%R).
  { unfold L. rewrite Rsum_app, map_map. f_equal. destruct (creation h); unfold Rsum; cbn [map fold_right]; lra. }
  rewrite <- EL. unfold size.
  assert (PR : forall a x, In (a, x) (filter (nonvac h) (pairs m ae cl h)) -> space m ae a /\ acts_at m ae a h [x] /\ total (fst (next a h x)) <> 0).
  { intros a x H. apply filter_In in H. destruct H as [H NV]. apply (In_pairs m ae G 1 cl Hcl h _ Hh) in H. cbn [fst snd] in H. destruct H as [Sa [_ Hx]].
    unfold nonvac in NV. cbn [fst snd] in NV. apply negb_true_iff, Z.eqb_neq in NV. auto. }
  apply Rsum_incl; [| |intros; apply mass_ge0].
  - unfold L. apply NdArray_proofs.NoDup_app.
    + apply NoDup_map_inj; [|apply NoDup_filter, (NoDup_pairs m ae G 1 cl ND Hcl h Hh)]. intros [a x] [b y] Ha Hb E.
      destruct (PR a x Ha) as [Sa [Hx Tx]]. destruct (PR b y Hb) as [Sb [Hy Ty]]. unfold img in E. cbn [fst snd] in E.
      rewrite (proj2 (Z.eqb_neq _ _) Tx), (proj2 (Z.eqb_neq _ _) Ty) in E.
      assert (NNa : 0 <= total (fst (next a h x))) by (destruct (next_spec m ae G a h x Sa Hh Hx) as [V _]; apply total_nonneg; [apply valid_wf|apply valid_nonneg]; exact V).
      assert (NNb : 0 <= total (fst (next b h y))) by (destruct (next_spec m ae G b h y Sb Hh Hy) as [V _]; apply total_nonneg; [apply valid_wf|apply valid_nonneg]; exact V).
      destruct (step_back m ae G a h h' x Sa Hh Hh' A Hx ltac:(lia)) as [_ [_ [Ea _]]]. destruct (step_back m ae G b h h' y Sb Hh Hh' A Hy ltac:(lia)) as [_ [_ [Eb _]]].
      pose proof (f_equal fst E) as E1. pose proof (f_equal snd E) as E2. cbn [fst snd] in E1, E2. assert (E3 : x - snd (next a h x) = y - snd (next b h y)) by lia. rewrite E1, E3, Eb in Ea.
      pose proof (f_equal fst Ea) as E5. pose proof (f_equal snd Ea) as E6. cbn [fst snd] in E5, E6. rewrite E5. f_equal. lia.
    + destruct (creation h); repeat constructor; intros [].
    + intros p H1 H2. destruct (creation h) eqn:Cr; [|destruct H2]. destruct H2 as [<-|[]]. apply in_map_iff in H1. destruct H1 as [[a x] [E H]].
      destruct (PR a x H) as [Sa [Hx Tx]]. destruct (next_cases h a x Sa Hh Hx) as [o' [_ [_ [_ K]]]]. destruct (K Tx) as [_ [_ TT]]. rewrite E in TT. cbn [fst] in TT.
      destruct (single_in_space m ae G _ (gm_index _ _ G h Hh)) as [_ T1]. destruct (space_unfold m ae a Sa) as [_ [_ [Ta _]]].
      unfold creation in Cr. unfold sgn in TT. destruct (ht_dag h); [lia|discriminate].
  - intros p Hp. unfold L in Hp. apply in_app_or in Hp. destruct Hp as [Hp|Hp].
    + apply in_map_iff in Hp. destruct Hp as [[a x] [<- H]]. destruct (PR a x H) as [Sa [Hx Tx]]. destruct (next_cases h a x Sa Hh Hx) as [o' [_ [_ [_ K]]]].
      destruct (K Tx) as [Sb [Hd _]]. destruct (img m h (a, x)) as [b d]. cbn [fst snd] in *. apply In_all. auto.
    + destruct (creation h) eqn:Cr; [|destruct Hp]. destruct Hp as [<-|[]]. pose proof (gm_index _ _ G h Hh) as Hi. destruct (single_in_space m ae G _ Hi) as [S1 T1]. apply In_all. split; [exact S1|].
      assert (D' : ht_dag h' = Minus) by (rewrite A3; unfold creation in Cr; destruct (ht_dag h); [reflexivity|discriminate]).
      destruct (single_step m ae G h' Hh' D') as [Act _]. rewrite A4 in Act. apply (In_ds m ae G _ _ S1). exists h', 0. split; [exact Hh'|]. split; [exact Act|]. unfold yy. lia.
Qed.

Lemma single_weight : forall h, In h ops -> weight (single_phonon (m_ntypes m) 1 (ht_index h)) = 1%R.
Proof.
  intros h Hh. destruct (op_adjoint m e Hherm h Hh) as [h' [Hh' [A _]]]. pose proof A as [A1 [A2 [A3 A4]]]. pose proof (gm_index _ _ G h Hh) as Hi. destruct (single_in_space m ae G _ Hi) as [S1 T1].
  destruct (ht_dag h) eqn:D.
  - assert (D' : ht_dag h' = Minus) by (rewrite A3; reflexivity). destruct (single_step m ae G h' Hh' D') as [Act T0]. rewrite A4 in Act, T0.
    apply (step_vacuum m ae G _ h' 0 S1 Hh' Act T0).
  - destruct (single_step m ae G h Hh D) as [Act T0]. apply (step_vacuum m ae G _ h 0 S1 Hh Act T0).
Qed.

Definition coupling_sum : R := Rsum (map (fun h => Cabs (ev e (ht_coupling h))) ops).
Let g := u (vac m, [0]).
Definition energy2 : R := (Cnorm2 g + size vv)%R.

Lemma extras : (Cabs g * Rsum (map (fun h => Cabs (entry_part h)) (filter creation ops)) + Rsum (map (fun h => Rsum (map (fun p => Cabs (extra h p)) (pairs m ae cl h))) ops)
   <= coupling_sum * (sN * (lam / 2 * energy2 + / (2 * lam) * size r)))%R.
Proof.
  set (K := (sN * (lam / 2 * energy2 + / (2 * lam) * size r))%R).
  assert (HI : (0 < / (2 * lam))%R) by (apply Rinv_0_lt_compat; lra). pose proof sN_ge1 as S1.
  assert (EF : Rsum (map (fun h => Cabs (entry_part h)) (filter creation ops)) = Rsum (map (fun h => if creation h then Cabs (entry_part h) else 0%R) ops)).
  { clear. induction ops as [|h o IH]; [reflexivity|]. cbn [filter]. rewrite (Rsum_cons _ h o), <- IH. destruct (creation h); [rewrite Rsum_cons|]; lra. }
  rewrite EF, <- Rsum_scal, <- Rsum_add. unfold coupling_sum.
  assert (ER : forall x l, (Rsum (map (fun h => Cabs (ev e (ht_coupling h))) l) * x)%R = Rsum (map (fun h => Cabs (ev e (ht_coupling h)) * x)%R l)).
  { clear. intros x l. induction l as [|h o IH]; [unfold Rsum; cbn [map fold_right]; lra|]. rewrite !Rsum_cons, <- IH. lra. }
  rewrite ER. apply Rsum_le. intros h Hh.
  assert (B1 : (Rsum (map (fun p => Cabs (extra h p)) (pairs m ae cl h)) <= Cabs (ev e (ht_coupling h)) * (sN * (lam / 2 * size vv + / (2 * lam) * Rsum (map (fun p => mass r (img m h p)) (pairs m ae cl h)))))%R).
  { eapply Rle_trans; [apply (Rsum_le _ (fun p => Cabs (ev e (ht_coupling h)) * (sN * (lam / 2 * mass vv (fst p, yy h (snd p)) + / (2 * lam) * mass r (img m h p))))%R)|].
    - intros [a x] Hp. apply (In_pairs m ae G 1 cl Hcl h _ Hh) in Hp. cbn [fst snd] in *. destruct Hp as [Sa [_ Hx]]. apply extra_term; assumption.
    - rewrite Rsum_scal. apply Rmult_le_compat_l; [apply Cabs_ge0|]. rewrite Rsum_scal. apply Rmult_le_compat_l; [lra|]. rewrite Rsum_add, !Rsum_scal.
      apply Rplus_le_compat_r. apply Rmult_le_compat_l; [lra|]. apply first_sum; exact Hh. }
  assert (B2 : (Cabs g * (if creation h then Cabs (entry_part h) else 0) <= Cabs (ev e (ht_coupling h)) * (sN * (lam / 2 * Cnorm2 g + / (2 * lam) * (if creation h then mass r (single_phonon (m_ntypes m) 1 (ht_index h), phi1 h) else 0))))%R).
  { pose proof (Cabs_ge0 (ev e (ht_coupling h))) as Pg. pose proof (norm_ge0 g) as Pn. destruct (creation h) eqn:Cr.
    - unfold entry_part. rewrite !Cabs_mul, Hunit. unfold mass. cbn [fst snd]. rewrite (single_weight h Hh), <- !Cabs_sq.
      set (x := Cabs (r (single_phonon (m_ntypes m) 1 (ht_index h), [phi1 h]))). set (y := Cabs g). set (q := Cabs (ev e (ht_coupling h))) in *.
      pose proof (amgm y x 1 1 1 1 sN lam (Cabs_ge0 _) (Cabs_ge0 _) ltac:(lra) ltac:(lra) ltac:(lra) eq_refl ltac:(nra) ltac:(lra) Hlam) as Z.
      replace (y * (q * 1 * x))%R with (q * (1 * 1 * (x * y)))%R by ring. replace (y * y)%R with (1 * (y * y))%R by ring. apply Rmult_le_compat_l; assumption.
    - rewrite Rmult_0_r, Rmult_0_r, Rplus_0_r. apply Rmult_le_pos; [exact Pg|]. apply Rmult_le_pos; [lra|]. apply Rmult_le_pos; lra. }
  eapply Rle_trans; [apply Rplus_le_compat; [exact B2|exact B1]|]. rewrite <- Rmult_plus_distr_l. apply Rmult_le_compat_l; [apply Cabs_ge0|].
  unfold K. rewrite <- Rmult_plus_distr_l. apply Rmult_le_compat_l; [lra|]. unfold energy2. pose proof (second_sum h Hh) as SS.
  assert (/ (2 * lam) * (Rsum (map (fun p => mass r (img m h p)) (pairs m ae cl h)) + (if creation h then mass r (single_phonon (m_ntypes m) 1 (ht_index h), phi1 h) else 0)) <= / (2 * lam) * size r)%R by (apply Rmult_le_compat_l; lra).
  lra.
Qed.

Lemma cross_total : @ksum CR (map (fun a => @kmul CR (RtoC (weight a)) (cross a)) cl) =
  Cadd (total_Q m ae e vv cl) (@ksum CR (map (fun h => @ksum CR (map (extra h) (pairs m ae cl h))) ops)).
Proof.
  assert (EP : forall f : hterm T -> nd * Z -> CR, @ksum CR (map (fun a => @ksum CR (map (fun h => @ksum CR (map (fun x => f h (a, x)) (st m ae a h))) ops)) cl) = @ksum CR (map (fun h => @ksum CR (map (f h) (pairs m ae cl h))) ops)).
  { intros f. rewrite (ksum_swap (K := CR)). apply ksum_ext. intros h _. unfold pairs. rewrite ksum_flat. apply ksum_ext. intros a _. rewrite map_map. reflexivity. }
  rewrite <- EP. unfold total_Q. change Cadd with (@kadd CR). rewrite <- (ksum_add (K := CR)). apply ksum_ext. intros a _. unfold cross, Q.
  rewrite <- !(ksum_scal (K := CR)), <- (ksum_add (K := CR)). apply ksum_ext. intros h _. rewrite <- !(ksum_scal (K := CR)), <- (ksum_add (K := CR)). apply ksum_ext. intros x _.
  unfold part, extra. cbn [fst snd]. rewrite src_linear, conj_add. change (@kmul CR) with Cmul. change (@kadd CR) with Cadd.
  generalize (vv (a, [yy h x])) (Cconj (src_at e vv a h x)) (Cconj (src_at e r a h x)). change (car CR) with C. intros y1 y2 y3. ring.
Qed.

Lemma stable_lam : (eta * energy2 <= Cabs g * (Cabs (z, eta) * Cabs gb) + coupling_sum * (sN * (lam / 2 * energy2 + / (2 * lam) * size r)))%R.
Proof.
  set (X := @ksum CR (map entry_part (filter creation ops))).
  assert (V0 : vv (vac m, [0]) = g) by (unfold vv, g; rewrite r_vac; generalize (u (vac m, [0])); change (car CR) with C; intros y; ring).
  assert (HV : kadd (vv (vac m, [0])) (ksum (map (gsummand e vv (m_ntypes m)) (filter creation ops))) = Csub gb (Cmul (G0 e) X)).
  { rewrite gsum_linear, V0, <- Vac. fold g X. change (@kadd CR) with Cadd. generalize g (Cmul (G0 e) X) (@ksum CR (map (gsummand e u (m_ntypes m)) (filter creation ops))). change (car CR) with C. intros y1 y2 y3. ring. }
  pose proof (energy m ae G e eta Hherm Hph vv 1 ltac:(lia) cl ND Hcl eq_refl vv_proper z _ HG0 HV) as E. rewrite V0 in E.
  assert (CT : (Im (@ksum CR (map (fun a => @kmul CR (RtoC (weight a)) (cross a)) cl)) <= - eta * size vv)%R).
  { unfold size, all. rewrite Rsum_flat. rewrite Im_ksum, <- Rsum_scal. apply Rsum_le. intros a Ha. apply Hcl in Ha. destruct Ha as [Sa _]. pose proof (cross_sum a Sa) as B.
    rewrite map_map. unfold mass. cbn [fst snd]. rewrite Rsum_scal. cbn [kmul CR car]. replace (Im (Cmul (RtoC (weight a)) (cross a))) with (weight a * Im (cross a))%R by (unfold Cmul, RtoC, Re, Im; cbn; ring).
    pose proof (weight_pos a). nra. }
  rewrite cross_total in CT. set (Y := @ksum CR (map (fun h => @ksum CR (map (extra h) (pairs m ae cl h))) ops)) in *.
  change (Im (total_Q m ae e vv cl) + Im Y <= - eta * size vv)%R in CT. rewrite E in CT.
  assert (EZ : Cmul (z, eta) (Csub gb (Cmul (G0 e) X)) = Csub (Cmul (z, eta) gb) X).
  { transitivity (Csub (Cmul (z, eta) gb) (Cmul (Cmul (G0 e) (z, eta)) X)); [|rewrite HG0]; generalize gb (G0 e) X; change (car CR) with C; intros; ring. }
  rewrite EZ in CT.
  assert (I1 : (Im (Cmul (Cconj g) (Csub (Cmul (z, eta) gb) X)) <= Cabs g * (Cabs (z, eta) * Cabs gb) + Cabs g * Cabs X)%R).
  { eapply Rle_trans; [apply Im_abs|]. rewrite Cabs_mul, Cabs_conj, <- Rmult_plus_distr_l. apply Rmult_le_compat_l; [apply Cabs_ge0|].
    replace (Csub (Cmul (z, eta) gb) X) with (Cadd (Cmul (z, eta) gb) (Copp X)) by (generalize gb X; change (car CR) with C; intros; ring).
    eapply Rle_trans; [apply Cabs_triangle|]. rewrite Cabs_mul, Cabs_opp. lra. }
  assert (I2 : (- Im Y <= Rsum (map (fun h => Rsum (map (fun p => Cabs (extra h p)) (pairs m ae cl h))) ops))%R).
  { change (- Im Y)%R with (Im (Copp Y)). eapply Rle_trans; [apply Im_abs|]. rewrite Cabs_opp. eapply Rle_trans; [apply Cutoff_proofs.Rsum_abs|]. apply Rsum_le. intros h _. apply Cutoff_proofs.Rsum_abs. }
  assert (I3 : (Cabs g * Cabs X <= Cabs g * Rsum (map (fun h => Cabs (entry_part h)) (filter creation ops)))%R) by (apply Rmult_le_compat_l; [apply Cabs_ge0|apply Cutoff_proofs.Rsum_abs]).
  pose proof extras as EX. unfold energy2 in *. lra.
Qed.
End Stable.

(** * Elimination of the free parameter *)
Section Final.
Context {T : Type}.
Variable m : model T.
Variable ae : Z.
Hypothesis G : good_model m ae.
Let ops := h_terms (m_ham m).
Variable e : env T CR.
Variable eta : R.
Variable c : Z.
Hypothesis Heta : (0 < eta)%R.
Hypothesis Hherm : hermitian e m.
Hypothesis Hlat : on_lattice m c.
Hypothesis Hph : forall d, ph e [- d] = Cconj (ph e [d]).
Hypothesis Hunit : forall d, Cabs (ph e [d]) = 1%R.
Hypothesis Hg0 : forall l, exists w t, (forall d : Z, Cadd (Cmul (w, eta) (g0 e [2 * d] l)) (Cmul (RtoC t) (Cadd (g0 e [2 * (d + 1)] l) (g0 e [2 * (d - 1)] l)))
   = if Z.eq_dec d 0 then C1 else C0) /\ vanishes (fun d => g0 e [2 * d] l).
Variable z : R.
Hypothesis HG0 : Cmul (G0 e) (z, eta) = C1.
Variable cl : list nd.
Hypothesis ND : NoDup cl.
Hypothesis Hcl : forall a, In a cl <-> space m ae a /\ 1 <= total a.
Variable N : Z.
Hypothesis HN : forall a, space m ae a -> total a <= N.
Hypothesis HN1 : 1 <= N.

Lemma coupling_ge0 : (0 <= coupling_sum m e)%R.
Proof. apply Rsum_nonneg. intros. apply Cabs_ge0. Qed.

Lemma quad : forall E a b A rho, (0 <= E -> 0 <= a <= E -> 0 <= b -> 0 <= A -> 0 <= rho ->
  (forall lam, 0 < lam -> eta * (E * E) <= a * b + A * (lam / 2 * (E * E) + / (2 * lam) * (rho * rho))) -> eta * E <= b + A * rho)%R.
Proof.
  intros E a b A rho HE Ha Hb HA Hr H. destruct (Req_dec E 0) as [->|NE]; [assert (0 <= A * rho)%R by (apply Rmult_le_pos; assumption); lra|].
  assert (PE : (0 < E)%R) by lra. apply le_epsilon. intros eps He. set (d := (eps / (A + 1))%R). assert (Pd : (0 < d)%R) by (apply Rdiv_lt_0_compat; lra).
  set (r' := (rho + d)%R). assert (Pr' : (0 < r')%R) by (unfold r'; lra).
  specialize (H (r' / E)%R ltac:(apply Rdiv_lt_0_compat; assumption)).
  assert (Q : (r' / E / 2 * (E * E) + / (2 * (r' / E)) * (rho * rho) <= r' * E)%R).
  { replace (r' / E / 2 * (E * E))%R with (r' * E / 2)%R by (field; lra). replace (/ (2 * (r' / E)) * (rho * rho))%R with (E / 2 * (rho * rho / r'))%R by (field; lra).
    assert (rho * rho / r' <= r')%R. { apply (Rmult_le_reg_r r'); [exact Pr'|]. unfold Rdiv. rewrite Rmult_assoc, Rinv_l by lra. unfold r'. nra. }
    nra. }
  assert (H1 : (eta * (E * E) <= E * b + A * (r' * E))%R).
  { eapply Rle_trans; [exact H|]. apply Rplus_le_compat; [apply Rmult_le_compat_r; lra|apply Rmult_le_compat_l; assumption]. }
  assert (H2 : (eta * E <= b + A * r')%R) by (apply (Rmult_le_reg_r E); [exact PE|lra]).
  assert (A * d <= eps)%R. { unfold d. apply (Rmult_le_reg_r (A + 1)); [lra|]. replace (A * (eps / (A + 1)) * (A + 1))%R with (A * eps)%R by (field; lra). nra. }
  unfold r' in H2. lra.
Qed.

Lemma stable : forall (u r : nd * list Z -> CR) gb, proper u -> proper r -> r (vac m, [0]) = C0 ->
  (forall a d l, space m ae a -> reached m ae a d -> energy_of (h_freqs (m_ham m)) a l ->
    kadd (u (a, [d])) (ksum (map (fun h => ksum (map (summand e u l a d h) (st m ae a h))) ops)) = r (a, [d])) ->
  kadd (u (vac m, [0])) (ksum (map (gsummand e u (m_ntypes m)) (filter creation ops))) = gb ->
  (eta * Cabs (u (vac m, [0%Z])) <= Cabs (z, eta) * Cabs gb + coupling_sum m e * sqrt (IZR N) * sqrt (size m ae cl r))%R.
Proof.
  intros u r gb Pu Pr R0 Rows Vac. set (E2 := energy2 m ae cl u r).
  assert (PS : (0 <= size m ae cl (vv u r))%R) by apply size_ge0. pose proof (norm_ge0 (u (vac m, [0]))) as PN.
  assert (PE : (0 <= E2)%R) by (unfold E2, energy2; lra).
  assert (LE : (Cabs (u (vac m, [0%Z])) <= sqrt E2)%R) by (apply sqrt_le_1_alt; unfold E2, energy2; lra).
  eapply Rle_trans; [apply Rmult_le_compat_l; [lra|exact LE]|].
  apply (quad (sqrt E2) (Cabs (u (vac m, [0%Z]))) _ (coupling_sum m e * sqrt (IZR N)) (sqrt (size m ae cl r))).
  - apply sqrt_pos.
  - split; [apply Cabs_ge0|exact LE].
  - apply Rmult_le_pos; apply Cabs_ge0.
  - apply Rmult_le_pos; [apply coupling_ge0|apply sqrt_pos].
  - apply sqrt_pos.
  - intros lam Hl. rewrite !sqrt_sqrt by (assumption || apply size_ge0). rewrite Rmult_assoc.
    exact (stable_lam m ae G e eta c Heta Hherm Hlat Hph Hunit Hg0 z HG0 cl ND Hcl N HN HN1 u r gb Pu Pr R0 Rows Vac lam Hl).
Qed.
End Final.

(** * The largest number of phonons *)
Lemma inv_fact_le1 : forall n, (inv_fact n <= 1)%R.
Proof.
  intros n. unfold inv_fact. rewrite <- Rinv_1. apply Rinv_le_contravar; [lra|]. change 1%R with (INR 1). apply le_INR. pose proof (lt_O_fact (Z.to_nat n)). lia.
Qed.
Lemma weight_le1 : forall a, (weight a <= 1)%R.
Proof.
  intros a. unfold weight. induction (box a) as [|p l IH]; [cbn [wprod fold_right]; lra|]. change (wprod (oc a) (p :: l)) with (inv_fact (oc a p) * wprod (oc a) l)%R.
  pose proof (inv_fact_le1 (oc a p)). pose proof (inv_fact_pos (oc a p)). pose proof (wprod_pos (oc a) l). nra.
Qed.

Lemma sum_limit : forall (f : nat -> Z) l b, (forall t, (t < List.length l)%nat -> f (b + t)%nat <= nth t l 0) -> sumZ (map f (seq b (List.length l))) <= sumZ l.
Proof.
  intros f l. induction l as [|x l IH]; intros b H; [reflexivity|]. cbn [List.length seq map]. change (f b + sumZ (map f (seq (S b) (List.length l))) <= x + sumZ l).
  pose proof (H 0%nat ltac:(cbn; lia)) as H0. cbn [nth] in H0. rewrite Nat.add_0_r in H0.
  enough (sumZ (map f (seq (S b) (List.length l))) <= sumZ l) by lia. apply IH. intros t Ht. specialize (H (S t) ltac:(cbn; lia)). cbn [nth] in H. rewrite Nat.add_succ_r in H. exact H.
Qed.

Lemma room_total : forall {T} (m : model T) ae, good_model m ae -> forall a, space m ae a -> total a <= sumZ (m_pn m).
Proof.
  intros T m ae G a Sa. destruct (space_unfold m ae a Sa) as [V [_ [_ [NT [_ [_ [_ [_ [_ L3]]]]]]]]]. pose proof V as [W [Rk _]].
  destruct (gm_wf _ _ G) as [_ [_ [Lp _]]]. rewrite (total_types a W) by lia. rewrite NT, <- Lp. apply sum_limit. intros t Ht. cbn [Nat.add]. apply L3. lia.
Qed.

Lemma room_pos : forall {T} (m : model T) ae, good_model m ae -> 1 <= sumZ (m_pn m).
Proof.
  intros T m ae G. destruct (gm_minus _ _ G) as [h [Hh _]]. destruct (single_in_space m ae G _ (gm_index _ _ G h Hh)) as [Sa T1]. pose proof (room_total m ae G _ Sa). lia.
Qed.

(** * The solver *)
Section Solver.
Context {T : Type}.
Variable m : model T.
Variable ae : Z.
Hypothesis G : good_model m ae.
Let ops := h_terms (m_ham m).
Variable e : env T CR.
Variable eta : R.
Variable c : Z.
Hypothesis Heta : (0 < eta)%R.
Hypothesis Hherm : hermitian e m.
Hypothesis Hlat : on_lattice m c.
Hypothesis Hph : forall d, ph e [- d] = Cconj (ph e [d]).
Hypothesis Hunit : forall d, Cabs (ph e [d]) = 1%R.
Hypothesis Hg0 : forall l, exists w t, (forall d : Z, Cadd (Cmul (w, eta) (g0 e [2 * d] l)) (Cmul (RtoC t) (Cadd (g0 e [2 * (d + 1)] l) (g0 e [2 * (d - 1)] l)))
   = if Z.eq_dec d 0 then C1 else C0) /\ vanishes (fun d => g0 e [2 * d] l).
Variable z : R.
Hypothesis HG0 : Cmul (G0 e) (z, eta) = C1.
Variable ord : string -> list vec -> list vec.
Hypothesis ord_perm : forall k l, Permutation (ord k l) l.
Variable s : system T.
Hypothesis Es : prime_system ord m = Ok s.

Let X : coo CR := mkCoo (NN s) (NN s) (triplets e s).
Let b : coo CR := mkCoo (NN s) 1 [((NN s - 1)%nat, 0%nat, G0 e)].

Lemma row_sub : forall (u v : nd * list Z -> CR) q, row e (fun p => Csub (u p) (v p)) q = Csub (row e u q) (row e v q).
Proof.
  intros u v q. unfold row.
  assert (LS : forall l : list (term T), @ksum CR (map (fun t => @kmul CR (coefficient e t) (Csub (u (unk t)) (v (unk t)))) l) =
    Csub (@ksum CR (map (fun t => @kmul CR (coefficient e t) (u (unk t))) l)) (@ksum CR (map (fun t => @kmul CR (coefficient e t) (v (unk t))) l))).
  { induction l as [|t r IH]; [apply Ceq; cbn; lra|]. cbn [map]. rewrite !ksum_cons, IH. change (@kmul CR) with Cmul. change (@kadd CR) with Cadd.
    generalize (coefficient e t) (u (unk t)) (v (unk t)) (@ksum CR (map (fun t => Cmul (coefficient e t) (u (unk t))) r)) (@ksum CR (map (fun t => Cmul (coefficient e t) (v (unk t))) r)). change (car CR) with C. intros. ring. }
  rewrite LS. change (@kadd CR) with Cadd. generalize (u (unk (e_index q))) (v (unk (e_index q))) (@ksum CR (map (fun t => @kmul CR (coefficient e t) (u (unk t))) (e_terms q))) (@ksum CR (map (fun t => @kmul CR (coefficient e t) (v (unk t))) (e_terms q))).
  change (car CR) with C. intros. ring.
Qed.

Definition place (p : nd * Z) : nat := fpos s (term_id (fst p) (Some (mkVec true [snd p]))).

Lemma place_of : sys_ok s -> forall i q a d, nth_error (all_eqs s) i = Some q -> unk (e_index q) = (a, [d]) -> place (a, d) = i.
Proof.
  intros O i q a d Hi U. destruct (so_valid s O q (e_index q) (nth_error_In _ _ Hi) (or_introl eq_refl)) as [V [f Ef]]. unfold unk in U. rewrite Ef in U.
  pose proof (f_equal fst U) as U1. pose proof (f_equal snd U) as U2. cbn [fst snd] in U1, U2. unfold place. cbn [fst snd]. rewrite <- U1, <- U2.
  replace (term_id (cfg (t_cfg (e_index q))) (Some (mkVec true (v2 f)))) with (tid (e_index q)); [apply (fpos_nth s O i q Hi)|].
  unfold tid. rewrite Ef. apply term_id_spec; auto.
Qed.

Lemma solver_error : forall (u0 : nd * list Z -> CR) (x : nat -> C), proper u0 -> conditions m ae e u0 (G0 e) ->
  (eta * Cabs (Csub (x (NN s - 1)%nat) (u0 (vac m, [0%Z]))) <= Cabs (z, eta) * Cabs (Spec_stable.residual X b x (NN s - 1))
     + coupling_sum m e * sqrt (Spec_stable.room m) * Spec_stable.norm (Spec_stable.residual X b x) (NN s - 1))%R.
Proof.
  intros u0 x Pu0 C0'. destruct (sys_ok_good m ae ord s G ord_perm Es) as [O _]. pose proof (NN_pos s O) as NP.
  set (rho := Spec_stable.residual X b x). destruct (clouds_from m ae 1 G ltac:(lia)) as [cl [ND Hcl]].
  set (u := (fun p => Csub (uof (K := CR) s x p) (u0 p)) : nd * list Z -> CR).
  set (r := (fun p : nd * list Z => if total (fst p) =? 0 then Cplx.C0 else uof (K := CR) s rho p) : nd * list Z -> CR).
  assert (Pu : proper (K := CR) u) by (intros a a' d V V' F F'; unfold u; rewrite (Pu0 a a' d V V' F F'), (uof_proper (K := CR) s x a a' d V V' F F'); reflexivity).
  assert (Pr : proper (K := CR) r).
  { intros a a' d V V' F F'. unfold r. cbn [fst]. apply valid_total_free in F; [|exact V]. apply valid_total_free in F'; [|exact V']. rewrite F, F'. reflexivity. }
  destruct (vac_valid m) as [Vv [T0 _]].
  assert (RV : r (vac m, [0]) = Cplx.C0) by (unfold r; cbn [fst]; rewrite T0; reflexivity).
  assert (ROW : forall i q, nth_error (all_eqs s) i = Some q -> row e u q = rho i).
  { intros i q Hi. unfold u. rewrite row_sub. rewrite <- (mv_value e s O (uof (K := CR) s x) i q (uof_proper (K := CR) s x) Hi), (mv_uof e s O).
    pose proof (proj2 (solution_iff m ae G ord ord_perm s Es e u0 Pu0) C0' q (nth_error_In _ _ Hi)) as H0. unfold holds in H0. rewrite H0, (bias_pos e s O i q Hi). reflexivity. }
  assert (AT : forall a d, space m ae a -> reached m ae a d -> exists i q l, nth_error (all_eqs s) i = Some q /\ unk (e_index q) = (a, [d]) /\ (i < NN s - 1)%nat /\ energy_of (h_freqs (m_ham m)) a l /\
     row e u q = kadd (u (a, [d])) (ksum (map (fun h => ksum (map (summand e u l a d h) (st m ae a h))) ops))).
  { intros a d Sa Rd. destruct (eq_exists m ae G ord ord_perm s Es a d Sa Rd) as [q [Hq [U Eg]]].
    destruct (eq_rows m ae G ord ord_perm s Es q Hq) as [[_ [a' [d' [l [U' [_ [_ [El RW]]]]]]]]|[Eg' _]]; [|congruence]. rewrite U in U'. assert (a' = a) as -> by congruence. assert (d' = d) as -> by congruence.
    apply In_nth_error in Hq. destruct Hq as [i Hi]. exists i, q, l. split; [exact Hi|]. split; [exact U|]. split; [|split; [exact El|exact (RW CR e u Pu)]].
    destruct (green_pos s O) as [qg [Hg [_ [Gg _]]]]. assert (L : (i < NN s)%nat) by (unfold NN; apply nth_error_Some; congruence).
    assert (i <> NN s - 1)%nat by (intros ->; congruence). lia. }
  assert (RR : forall a d i, space m ae a -> place (a, d) = i -> r (a, [d]) = rho i).
  { intros a d i Sa E. destruct (space_unfold m ae a Sa) as [_ [_ [Ta _]]]. unfold r. cbn [fst]. rewrite (proj2 (Z.eqb_neq (total a) 0)) by lia. unfold uof. cbn [fst snd]. rewrite <- E. reflexivity. }
  assert (Rows : forall a d l, space m ae a -> reached m ae a d -> energy_of (h_freqs (m_ham m)) a l ->
    kadd (u (a, [d])) (ksum (map (fun h => ksum (map (summand e u l a d h) (st m ae a h))) ops)) = r (a, [d])).
  { intros a d l Sa Rd El. destruct (AT a d Sa Rd) as [i [q [l' [Hi [U [_ [El' RW]]]]]]]. rewrite (energy_unique _ _ _ _ El El'), <- RW, (ROW i q Hi).
    symmetry. apply RR; [exact Sa|]. apply (place_of O i q a d Hi U). }
  destruct (green_pos s O) as [qg [Hg [_ [Gg _]]]].
  destruct (eq_rows m ae G ord ord_perm s Es qg (nth_error_In _ _ Hg)) as [[Eg' _]|[_ [Ug RWg]]]; [congruence|].
  assert (Vac : kadd (u (vac m, [0])) (ksum (map (gsummand e u (m_ntypes m)) (filter creation ops))) = rho (NN s - 1)%nat) by (transitivity (row e u qg); [symmetry; exact (RWg CR e u)|exact (ROW _ _ Hg)]).
  pose proof (stable m ae G e eta c Heta Hherm Hlat Hph Hunit Hg0 z HG0 cl ND Hcl (sumZ (m_pn m)) (room_total m ae G) (room_pos m ae G) u r _ Pu Pr RV Rows Vac) as B.
  assert (UV : u (vac m, [0]) = Csub (x (NN s - 1)%nat) (u0 (vac m, [0]))).
  { unfold u. f_equal. rewrite <- Ug. rewrite <- (uof_xof s O (K := CR) x (NN s - 1)) by lia. unfold xof. rewrite Hg. reflexivity. }
  rewrite UV in B. eapply Rle_trans; [exact B|]. apply Rplus_le_compat_l. change (IZR (sumZ (m_pn m))) with (Spec_stable.room m).
  apply Rmult_le_compat_l; [apply Rmult_le_pos; [apply coupling_ge0|apply sqrt_pos]|].
  unfold Spec_stable.norm. apply sqrt_le_1_alt. change (fold_right Rplus 0%R) with Rsum. unfold size.
  assert (RD : forall a d, In (a, d) (all m ae cl) -> space m ae a /\ reached m ae a d).
  { intros a d H. apply (In_all m ae cl Hcl) in H. destruct H as [Sa Hd]. split; [exact Sa|]. apply (ds_reached m ae G e Hherm Hph a); assumption. }
  eapply Rle_trans; [apply (Rsum_le _ (fun p => Cnorm2 (rho (place p))))|].
  - intros [a d] H. destruct (RD a d H) as [Sa Rd]. unfold mass. cbn [fst snd]. rewrite (RR a d _ Sa eq_refl). pose proof (weight_le1 a). pose proof (norm_ge0 (rho (place (a, d)))). nra.
  - rewrite <- (map_map place (fun i => Cnorm2 (rho i))). apply Rsum_incl.
    + apply NoDup_map_inj; [|apply (NoDup_all m ae cl ND)]. intros [a d] [a' d'] H H' E. destruct (RD a d H) as [Sa Rd]. destruct (RD a' d' H') as [Sa' Rd'].
      destruct (AT a d Sa Rd) as [i [q [l [Hi [U _]]]]]. destruct (AT a' d' Sa' Rd') as [i' [q' [l' [Hi' [U' _]]]]].
      rewrite (place_of O i q a d Hi U), (place_of O i' q' a' d' Hi' U') in E. subst i'. assert (q' = q) as -> by congruence. rewrite U in U'. congruence.
    + intros i Hi. apply in_map_iff in Hi. destruct Hi as [[a d] [<- H]]. destruct (RD a d H) as [Sa Rd]. destruct (AT a d Sa Rd) as [i [q [l [Hi [U [L _]]]]]].
      rewrite (place_of O i q a d Hi U). apply in_seq. lia.
    + intros. apply norm_ge0.
Qed.
End Solver.

(** * Norms and neighbouring matrices *)
Lemma norm_le : forall y n t, (0 <= t)%R -> (forall i, (i < n)%nat -> Cabs (y i) <= t)%R -> (Spec_stable.norm y n <= t * sqrt (INR n))%R.
Proof.
  intros y n t Ht H. unfold Spec_stable.norm. rewrite <- (sqrt_Rsqr t) at 1 by exact Ht. rewrite <- sqrt_mult_alt by apply Rle_0_sqr. apply sqrt_le_1_alt.
  change (fold_right Rplus 0%R) with Rsum. assert (Q : forall l, (forall i, In i l -> (i < n)%nat) -> (Rsum (map (fun i => Cnorm2 (y i)) l) <= Rsqr t * INR (List.length l))%R).
  { induction l as [|i l IH]; intros Hl; [unfold Rsum; cbn [map fold_right List.length INR]; lra|]. rewrite Rsum_cons. cbn [List.length]. rewrite S_INR.
    pose proof (IH ltac:(intros; apply Hl; right; assumption)) as IHl. pose proof (H i (Hl i (or_introl eq_refl))) as Hi. pose proof (Cabs_ge0 (y i)) as P. rewrite <- Cabs_sq. unfold Rsqr in *. nra. }
  rewrite <- (seq_length n 0) at 2. apply Q. intros i Hi. apply in_seq in Hi. lia.
Qed.

Lemma norm_mono : forall y n p, (n <= p)%nat -> (Spec_stable.norm y n <= Spec_stable.norm y p)%R.
Proof.
  intros y n p H. unfold Spec_stable.norm. apply sqrt_le_1_alt. change (fold_right Rplus 0%R) with Rsum. replace p with (n + (p - n))%nat by lia. rewrite seq_app, Rsum_app.
  assert (0 <= Rsum (map (fun i => Cnorm2 (y i)) (seq (0 + n) (p - n))))%R by (apply Rsum_nonneg; intros; apply norm_ge0). lra.
Qed.

Lemma norm_ge : forall y n i, (i < n)%nat -> (Cabs (y i) <= Spec_stable.norm y n)%R.
Proof.
  intros y n i H. unfold Spec_stable.norm, Cabs. apply sqrt_le_1_alt. change (fold_right Rplus 0%R) with Rsum.
  replace n with (i + S (n - i - 1))%nat by lia. rewrite seq_app, Rsum_app. cbn [Nat.add seq]. rewrite Rsum_cons.
  assert (0 <= Rsum (map (fun i => Cnorm2 (y i)) (seq 0 i)))%R by (apply Rsum_nonneg; intros; apply norm_ge0).
  assert (0 <= Rsum (map (fun i => Cnorm2 (y i)) (seq (S i) (n - i - 1))))%R by (apply Rsum_nonneg; intros; apply norm_ge0). lra.
Qed.

Lemma norm1_ge0 : forall y n, (0 <= Spec_stable.norm1 y n)%R.
Proof. intros y n. apply Rsum_nonneg. intros. apply Cabs_ge0. Qed.

Lemma norm1_le : forall y n t, (forall i, (i < n)%nat -> Cabs (y i) <= t)%R -> (Spec_stable.norm1 y n <= INR n * t)%R.
Proof.
  intros y n t H. unfold Spec_stable.norm1. change (fold_right Rplus 0%R) with Rsum.
  assert (Q : forall l, (forall i, In i l -> (i < n)%nat) -> (Rsum (map (fun i => Cabs (y i)) l) <= INR (List.length l) * t)%R).
  { induction l as [|i l IH]; intros Hl; [unfold Rsum; cbn [map fold_right List.length INR]; lra|]. rewrite Rsum_cons. cbn [List.length]. rewrite S_INR.
    pose proof (IH ltac:(intros; apply Hl; right; assumption)) as IHl. pose proof (H i (Hl i (or_introl eq_refl))). lra. }
  rewrite <- (seq_length n 0) at 2. apply Q. intros i Hi. apply in_seq in Hi. lia.
Qed.

Lemma mv_entries : forall X (x : nat -> CR) i, Spec_stable.in_shape X -> mv (c_ent X) x i = ksum (map (fun j => kmul (entry (c_ent X) i j) (x j)) (seq 0 (c_cols X))).
Proof.
  intros X x i S. unfold mv.
  rewrite <- (map_map (fun p : nat * nat * CR => (snd (fst p), snd p)) (fun p => kmul (snd p) (x (fst p)))).
  rewrite (ksum_group (K := CR) _ x (c_cols X)).
  - apply ksum_ext. intros j _. f_equal. unfold entry. f_equal. clear S. induction (c_ent X) as [|[[i' j'] v] l IH]; [reflexivity|].
    cbn [filter fst snd]. destruct (Nat.eqb i' i); cbn [andb map filter fst snd]; [destruct (Nat.eqb j' j); cbn [map snd]; [f_equal|]; exact IH|exact IH].
  - intros p Hp. apply in_map_iff in Hp. destruct Hp as [[[i' j'] v] [<- Hp]]. apply filter_In in Hp. cbn [fst snd]. apply (S i' j' v (proj1 Hp)).
Qed.

Lemma tri4 : forall a b x p q : C, (Cabs (Csub (Cadd (Cmul a x) p) (Cadd (Cmul b x) q)) <= Cabs (Csub a b) * Cabs x + Cabs (Csub p q))%R.
Proof.
  intros a b x p q. replace (Csub (Cadd (Cmul a x) p) (Cadd (Cmul b x) q)) with (Cadd (Cmul (Csub a b) x) (Csub p q)) by ring.
  eapply Rle_trans; [apply Cabs_triangle|]. rewrite Cabs_mul. lra.
Qed.
Lemma tri5 : forall P Q a b : C, (Cabs (Csub P a) <= Cabs (Csub Q b) + (Cabs (Csub Q P) + Cabs (Csub b a)))%R.
Proof.
  intros P Q a b. replace (Csub P a) with (Cadd (Csub Q b) (Cadd (Copp (Csub Q P)) (Csub b a))) by ring.
  eapply Rle_trans; [apply Cabs_triangle|]. apply Rplus_le_compat_l. eapply Rle_trans; [apply Cabs_triangle|]. rewrite Cabs_opp. lra.
Qed.

Lemma sum_diff : forall (A B : nat -> CR) (x : nat -> CR) d l, (forall j, In j l -> (Cabs (Csub (A j) (B j)) <= d)%R) ->
  (Cabs (Csub (@ksum CR (map (fun j => @kmul CR (A j) (x j)) l)) (@ksum CR (map (fun j => @kmul CR (B j) (x j)) l))) <= d * Rsum (map (fun j => Cabs (x j)) l))%R.
Proof.
  intros A B x d l. induction l as [|j l IH]; intros H.
  - unfold Rsum. cbn [map fold_right]. replace (Csub (@ksum CR []) (@ksum CR [])) with Cplx.C0 by (apply Ceq; cbn; lra). rewrite Cabs_0. lra.
  - cbn [map]. rewrite !ksum_cons. change (Rsum (Cabs (x j) :: map (fun j0 => Cabs (x j0)) l)) with (Cabs (x j) + Rsum (map (fun j => Cabs (x j)) l))%R.
    specialize (IH ltac:(intros; apply H; right; assumption)). change (@kadd CR) with Cadd. change (@kmul CR) with Cmul in *.
    eapply Rle_trans; [apply tri4|]. rewrite Rmult_plus_distr_l. apply Rplus_le_compat; [|exact IH].
    apply Rmult_le_compat_r; [apply Cabs_ge0|apply H; left; reflexivity].
Qed.

Lemma residual_near : forall X v Y w (x : nat -> C) d i, Spec_stable.in_shape X -> Spec_stable.in_shape Y -> Spec_stable.near d X Y -> Spec_stable.near d v w -> (0 < c_cols v)%nat -> c_rows v = c_rows X -> (i < c_rows X)%nat ->
  (Cabs (Spec_stable.residual X v x i) <= Cabs (Spec_stable.residual Y w x i) + d * (1 + Spec_stable.norm1 x (c_cols X)))%R.
Proof.
  intros X v Y w x d i SX SY [N1 [N2 N3]] [M1 [M2 M3]] Hv Hr Hi. unfold Spec_stable.residual. rewrite (mv_entries X x i SX), (mv_entries Y x i SY), N2.
  pose proof (sum_diff (fun j => entry (c_ent Y) i j) (fun j => entry (c_ent X) i j) x d (seq 0 (c_cols X)) ltac:(intros j Hj; apply in_seq in Hj; apply N3; lia)) as D.
  pose proof (M3 i 0%nat ltac:(lia) Hv) as D2. unfold Spec_stable.norm1. change (fold_right Rplus 0%R) with Rsum.
  eapply Rle_trans; [apply (tri5 _ (@ksum CR (map (fun j => @kmul CR (entry (c_ent Y) i j) (x j)) (seq 0 (c_cols X)))) _ (entry (c_ent w) i 0))|]. apply Rplus_le_compat_l. eapply Rle_trans; [apply Rplus_le_compat; [exact D|exact D2]|]. lra.
Qed.

(** A nonsingular matrix has a bounded inverse. *)
Lemma inverse_bound : forall (X : coo CR) (sp : coo CR -> coo CR -> nat -> CR), spsolve_ok sp -> c_rows X = c_cols X -> nonsingular X ->
  exists B, (0 <= B)%R /\ forall (x : nat -> C) t, (forall j, (j < c_rows X)%nat -> Cabs (mv (c_ent X) (x : nat -> CR) j) <= t)%R -> (0 <= t)%R -> forall i, (i < c_rows X)%nat -> (Cabs (x i) <= B * t)%R.
Proof.
  intros X sp SO Sq NS. set (n := c_rows X) in *.
  set (col := fun j => sp X (mkCoo n 1 [(j, 0%nat, Cplx.C1 : CR)])).
  assert (HC : forall i j, (i < n)%nat -> mv (c_ent X) (col j) i = if Nat.eqb j i then Cplx.C1 else Cplx.C0).
  { intros i j Hi. unfold col. rewrite (SO X (mkCoo n 1 [(j, 0%nat, Cplx.C1 : CR)]) Sq eq_refl NS i Hi). cbn [c_ent]. unfold entry. cbn [filter fst snd]. rewrite Nat.eqb_refl, andb_true_r.
    destruct (Nat.eqb j i); cbn [map snd]; [apply Ceq; cbn; lra|reflexivity]. }
  set (S := Rsum (map (fun i => Rsum (map (fun j => Cabs (col j i)) (seq 0 n))) (seq 0 n))).
  assert (PS : forall i, (0 <= Rsum (map (fun j => Cabs (col j i)) (seq 0 n)))%R) by (intros; apply Rsum_nonneg; intros; apply Cabs_ge0).
  exists S. split; [apply Rsum_nonneg; intros; apply PS|]. intros x t Hx Ht i Hi.
  assert (E : x i = @ksum CR (map (fun j => @kmul CR (mv (c_ent X) (x : nat -> CR) j) (col j i)) (seq 0 n))).
  { assert (Z : forall i, (i < c_cols X)%nat -> (fun i => Csub (x i) (@ksum CR (map (fun j => @kmul CR (mv (c_ent X) (x : nat -> CR) j) (col j i)) (seq 0 n)))) i = Cplx.C0).
    { apply (NS (fun i => Csub (x i) (@ksum CR (map (fun j => @kmul CR (mv (c_ent X) (x : nat -> CR) j) (col j i)) (seq 0 n))))). fold n. intros q Hq.
      pose proof (mv_sub (K := CR) (c_ent X) x (fun i => @ksum CR (map (fun j => @kmul CR (mv (c_ent X) (x : nat -> CR) j) (col j i)) (seq 0 n))) q) as MS.
      change (@ksub CR) with Csub in MS. cbv beta in MS |- *. rewrite MS. clear MS.
      assert (MM : mv (c_ent X) (fun i0 : nat => @ksum CR (map (fun j : nat => @kmul CR (mv (c_ent X) (x : nat -> CR) j) (col j i0)) (seq 0 n))) q = mv (c_ent X) (x : nat -> CR) q).
      { transitivity (@ksum CR (map (fun j => @kmul CR (mv (c_ent X) (x : nat -> CR) j) (mv (c_ent X) (col j) q)) (seq 0 n))).
        - unfold mv at 1. transitivity (@ksum CR (map (fun p : nat * nat * CR => @ksum CR (map (fun j => @kmul CR (mv (c_ent X) (x : nat -> CR) j) (@kmul CR (snd p) (col j (snd (fst p))))) (seq 0 n))) (filter (fun p => Nat.eqb (fst (fst p)) q) (c_ent X)))).
          + apply ksum_ext. intros p _. rewrite <- (ksum_scal (K := CR)). apply ksum_ext. intros j _. change (@kmul CR) with Cmul. generalize (snd p) (mv (c_ent X) (x : nat -> CR) j) (col j (snd (fst p))). change (car CR) with C. intros. ring.
          + rewrite (ksum_swap (K := CR)). apply ksum_ext. intros j _. rewrite (ksum_scal (K := CR) _ (mv (c_ent X) (x : nat -> CR) j)). reflexivity.
        - rewrite <- (ksum_pick (K := CR) (fun j => mv (c_ent X) (x : nat -> CR) j) n 0 q) by lia. apply ksum_ext. intros j Hj. rewrite (HC q j Hq). rewrite Nat.eqb_sym.
          change (@kmul CR) with Cmul. destruct (Nat.eqb q j); generalize (mv (c_ent X) (x : nat -> CR) j); change (car CR) with C; intros y; (reflexivity || (cbn; ring) || (apply Ceq; cbn; ring)). }
      rewrite MM. generalize (mv (c_ent X) (x : nat -> CR) q). change (car CR) with C. intros y. apply Ceq; cbn; ring. }
    specialize (Z i ltac:(lia)). cbv beta in Z. revert Z. generalize (x i) (@ksum CR (map (fun j => @kmul CR (mv (c_ent X) (x : nat -> CR) j) (col j i)) (seq 0 n))). change (car CR) with C. intros y1 y2 Z.
    transitivity (Cadd (Csub y1 y2) y2); [ring|rewrite Z; ring]. }
  rewrite E. eapply Rle_trans; [apply Cutoff_proofs.Rsum_abs|].
  eapply Rle_trans; [apply (Rsum_le _ (fun j => t * Cabs (col j i))%R)|].
  - intros j Hj. apply in_seq in Hj. change (@kmul CR) with Cmul. rewrite Cabs_mul. apply Rmult_le_compat_r; [apply Cabs_ge0|]. apply Hx. lia.
  - rewrite Rsum_scal, Rmult_comm. apply Rmult_le_compat_r; [exact Ht|]. unfold S.
    replace n with (i + Datatypes.S (n - i - 1))%nat at 2 by lia. rewrite seq_app, Rsum_app. cbn [Nat.add seq]. rewrite Rsum_cons.
    assert (forall l, 0 <= Rsum (map (fun i => Rsum (map (fun j => Cabs (col j i)) (seq 0 n))) l))%R as PL by (intros l; apply Rsum_nonneg; intros; apply PS).
    pose proof (PL (seq 0 i)). pose proof (PL (seq (Datatypes.S i) (n - i - 1))). lra.
Qed.

(** * Evaluation at a momentum and a frequency *)
Lemma coupling_phys : forall (m : model R) k w eta, hermitian (phys_env m k w eta) m -> coupling_sum m (phys_env m k w eta) = (2 * Spec_self.strength m)%R.
Proof.
  intros m k w eta H. pose proof (strength_phys m k w eta H) as S. replace (2 * Spec_self.strength m)%R with (Cutoff_proofs.strength m (phys_env m k w eta) + Spec_self.strength m)%R by (rewrite S; ring). clear S H.
  unfold coupling_sum, Cutoff_proofs.strength, Spec_self.strength. induction (h_terms (m_ham m)) as [|h o IH]; [unfold Rsum; cbn [map fold_right filter]; lra|].
  rewrite Rsum_cons, IH. cbn [map fold_right filter]. unfold annihilates at 2. destruct (ht_dag h); [|rewrite Rsum_cons]; cbn [phys_env ev]; rewrite ?Cabs_R; lra.
Qed.
