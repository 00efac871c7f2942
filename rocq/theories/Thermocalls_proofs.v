(** Proofs for C72: what add_ makes of the same calls at a temperature and at
    temperature 0. *)
From Coq Require Import String ZArith Reals List Bool Lia Lra Permutation Classical FunctionalExtensionality.
From Verif Require Import Base Model HModel Ring Coef Cplx Physics Spec_model Spec_sym Spec_eom Spec_green Spec_exact Spec_moments Spec_thermal Thermal_proofs Props_Physics.
From Verif Require HModel_proofs Double_proofs Exact_proofs.
Import ListNotations.
Open Scope list_scope.
Open Scope Z_scope.

Definition Vof (T f : R) : R := fst (tfd_prefactors Rnum T f).
Definition Vtof (T f : R) : R := snd (tfd_prefactors Rnum T f).

Lemma pairs_perm : forall A B (f g : A -> B) l, Permutation (map f l ++ map g l) (flat_map (fun a => [f a; g a]) l).
Proof.
  intros A B f g l. induction l as [|a l IH]; [constructor|]. cbn [map flat_map app]. apply perm_skip. rewrite <- IH. symmetry. apply Permutation_middle.
Qed.
(** The operators of a call at a temperature, from those at temperature 0. *)
Lemma terms_double : forall T dim ty g f i i' j ts0, ty <> "EdwardsFermionBoson"%string -> i' = (2 * i)%nat -> j = S (2 * i) -> get_terms Rnum dim ty (g * 1)%R i f = Some ts0 ->
  exists ts ts', get_terms Rnum dim ty (g * Vof T f)%R i' f = Some ts /\ get_terms Rnum dim ty (g * Vtof T f)%R j (- f)%R = Some ts' /\
    Permutation (ts ++ ts') (flat_map (fun h => [real_part (Vof T) h; tilde_part (Vtof T) h]) ts0) /\ (forall h, In h ts0 -> ht_index h = i /\ ht_freq h = f).
Proof.
  intros T dim ty g f i i' j ts0 NE -> -> H. unfold get_terms in *. cbn [n_opp Rnum] in *.
  assert (O : forall V : R, (- (g * V))%R = (- (g * 1) * V)%R) by (intros; ring). assert (O' : forall V : R, (g * V)%R = ((g * 1) * V)%R) by (intros; ring).
  destruct (String.eqb ty "Holstein"); [|destruct (String.eqb_spec ty "EdwardsFermionBoson") as [E|_]; [contradiction|destruct (String.eqb ty "BondPeierls"); [|destruct (String.eqb ty "Peierls"); [|discriminate]]]];
  (match type of H with Some ?l = Some _ => assert (ts0 = l) by congruence; clear H; subst ts0 end);
  (eexists; eexists; split; [reflexivity|]; split; [reflexivity|]; split;
   [rewrite <- pairs_perm; rewrite (O (Vof T f)), (O (Vtof T f)) || idtac; rewrite ?(O' (Vof T f)), ?(O' (Vtof T f)); apply Permutation_app; [reflexivity|cbn [map tilde_part flipped ht_type ht_psi ht_phi ht_dag ht_coupling ht_index ht_freq]]
   |intros h Hh; repeat (destruct Hh as [<- |Hh]; [split; reflexivity|]); destruct Hh]).
  - apply perm_swap.
  - eapply perm_trans; [apply perm_swap|]. apply perm_skip, perm_skip. apply perm_swap.
  - eapply perm_trans; [apply perm_swap|]. apply perm_skip, perm_skip. eapply perm_trans; [apply perm_swap|]. apply perm_skip, perm_skip. eapply perm_trans; [apply perm_swap|]. apply perm_skip, perm_skip. apply perm_swap.
Qed.

Record pair (T : R) (m0 m : model R) (fs : list R) : Prop := {
  pr_temp : m_temp m = T; pr_temp0 : m_temp m0 = 0%R; pr_lat : m_lattice m = m_lattice m0; pr_mps : m_mps m = None; pr_mps0 : m_mps m0 = None;
  pr_nt : m_ntypes m = (2 * m_ntypes m0)%nat; pr_dim : h_dim (m_ham m) = h_dim (m_ham m0); pr_hop : h_hop (m_ham m) = h_hop (m_ham m0);
  pr_fs0 : h_freqs (m_ham m0) = fs; pr_len : List.length fs = m_ntypes m0; pr_fs : h_freqs (m_ham m) = flat_map (fun f => [f; - f]%R) fs;
  pr_pos : forall f, In f fs -> (0 < f)%R;
  pr_idx : forall h, In h (h_terms (m_ham m0)) -> (ht_index h < m_ntypes m0)%nat /\ ht_freq h = nth (ht_index h) fs 0%R;
  pr_terms : Permutation (h_terms (m_ham m)) (flat_map (fun h => [real_part (Vof T) h; tilde_part (Vtof T) h]) (h_terms (m_ham m0))) }.

Definition plain (a : add_args R) : Prop := a_override a = None /\ (0 < a_freq a)%R /\ a_type a <> "EdwardsFermionBoson"%string.

Lemma fresh_freq : forall fs f, distinct Rnum (fs ++ [f]) -> existsb (n_eqb Rnum f) fs = false.
Proof.
  intros fs f D. destruct (HModel_proofs.distinct_app Rnum fs f D) as [_ H]. apply not_true_iff_false. rewrite existsb_exists. intros [x [Hx E]]. rewrite (H x Hx) in E. discriminate.
Qed.
Lemma in_doubled : forall fs f, In f fs -> In f (flat_map (fun f => [f; - f]%R) fs).
Proof. intros fs f H. apply in_flat_map. exists f. split; [exact H|left; reflexivity]. Qed.

Lemma pair_add : forall T m0 m fs a logs m1, (0 < T)%R -> pair T m0 m fs -> plain a -> model_add Rnum m a = Ok (logs, m1) -> ~ In LError logs ->
  distinct Rnum (flat_map (fun f => [f; - f]%R) fs ++ [a_freq a; - a_freq a]%R) ->
  exists logs0 m01, model_add Rnum m0 a = Ok (logs0, m01) /\ ~ In LError logs0 /\ pair T m01 m1 (fs ++ [a_freq a]).
Proof.
  intros T m0 m fs a logs m1 HT P (Ov & Fp & NE) E L Df.
  change (flat_map (fun f => [f; - f]%R) fs ++ [a_freq a; - a_freq a]%R) with (flat_map (fun f => [f; - f]%R) fs ++ [a_freq a] ++ [- a_freq a]%R) in Df. rewrite app_assoc in Df.
  pose proof (HModel_proofs.distinct_app Rnum _ _ Df) as [Df1 _]. pose proof (fresh_freq _ _ Df) as F2. pose proof (fresh_freq _ _ Df1) as F1.
  assert (F0 : existsb (n_eqb Rnum (a_freq a)) fs = false).
  { apply not_true_iff_false. rewrite existsb_exists. intros [x [Hx Ex]]. assert (X : existsb (n_eqb Rnum (a_freq a)) (flat_map (fun f => [f; - f]%R) fs) = true); [apply existsb_exists; exists x; split; [apply in_doubled, Hx|exact Ex]|]. rewrite F1 in X. discriminate. }
  destruct (HModel_proofs.acceptable_dec Rnum m a) as [A|A].
  2:{ rewrite (HModel_proofs.add_rejects Rnum m a A) in E. exfalso. apply L. assert (logs = [LError]) as -> by congruence. left. reflexivity. }
  assert (hot : n_ltb Rnum (n_0 Rnum) T = true) by (cbn; destruct (Rlt_dec 0 T); [reflexivity|contradiction]).
  assert (cold : n_ltb Rnum (n_0 Rnum) 0%R = false) by (cbn; destruct (Rlt_dec 0 0); [lra|reflexivity]).
  assert (A0 : acceptable Rnum m0 a) by (constructor; try apply A; rewrite (pr_temp0 _ _ _ _ P), cold; discriminate).
  unfold model_add in *. cbv zeta in *. rewrite (HModel_proofs.add_passes Rnum m a A) in E. rewrite (HModel_proofs.add_passes Rnum m0 a A0).
  rewrite (pr_temp _ _ _ _ P) in E. rewrite (pr_temp0 _ _ _ _ P). rewrite hot in E. rewrite cold. rewrite Ov in *.
  assert (E0 : tfd_prefactors Rnum 0%R (a_freq a) = (1, 0)%R) by (unfold tfd_prefactors; rewrite cold; reflexivity). rewrite E0.
  destruct (tfd_prefactors Rnum T (a_freq a)) as [V Vt] eqn:EV.
  assert (V1 : Vof T (a_freq a) = V) by (unfold Vof; rewrite EV; reflexivity). assert (V2 : Vtof T (a_freq a) = Vt) by (unfold Vtof; rewrite EV; reflexivity).
  destruct (ham_add Rnum (m_ham m) (a_type a) (Z.of_nat (m_ntypes m)) (a_freq a) (a_cs a) (a_dcs a) V) as [[l1 h1]|] eqn:E1; [|discriminate]. cbn [bind] in E.
  destruct (ham_add Rnum h1 (a_type a) (Z.of_nat (m_ntypes m) + 1) (n_opp Rnum (a_freq a)) (a_cs a) (a_dcs a) Vt) as [[l2 h2]|] eqn:E2; [|discriminate]. cbn [bind] in E.
  destruct (a_Mtfd a) as [Mt|] eqn:EM; [|discriminate]. destruct (a_Ntfd a) as [Nt|] eqn:EN; [|discriminate]. cbn [m_pe m_pn m_ntypes] in E.
  match type of E with Ok (?x, ?y) = _ => assert (EL : x = logs) by congruence; assert (y = m1) by congruence end. subst m1.
  destruct (Double_proofs.ham_add_inv Rnum _ _ _ _ _ _ _ _ _ E1) as [g [ts [Gv [Et [_ [-> Eh1]]]]]]; [intros H; apply L; rewrite <- EL; apply in_or_app; right; apply in_or_app; left; exact H|].
  destruct (Double_proofs.ham_add_inv Rnum _ _ _ _ _ _ _ _ _ E2) as [g2 [ts2 [Gv2 [Et2 [_ [-> Eh2]]]]]]; [intros H; apply L; rewrite <- EL; apply in_or_app; right; apply in_or_app; right; exact H|].
  assert (Dh : h_dim h1 = h_dim (m_ham m)) by (rewrite Eh1; reflexivity). assert (Hh : h_hop h1 = h_hop (m_ham m)) by (rewrite Eh1; reflexivity).
  assert (g2 = g) as ->.
  { destruct Gv as [[G1 G2]|[G1 (lam & G2 & G3)]], Gv2 as [[K1 K2]|[K1 (lam' & K2 & K3)]]; try congruence.
    rewrite Hh in K3. change (n_opp Rnum (a_freq a)) with (- a_freq a)%R in K3. rewrite C46_sign_of_frequency in K3. congruence. }
  cbn [n_mul Rnum n_opp] in Et, Et2. rewrite Dh in Et2. rewrite (pr_dim _ _ _ _ P) in Et, Et2.
  assert (X0 : exists ts0, get_terms Rnum (h_dim (m_ham m0)) (a_type a) (g * 1)%R (m_ntypes m0) (a_freq a) = Some ts0).
  { clear - Et. unfold get_terms in *. destruct (String.eqb (a_type a) "Holstein"); [eauto|]. destruct (String.eqb (a_type a) "EdwardsFermionBoson"); [eauto|]. destruct (String.eqb (a_type a) "BondPeierls"); [eauto|]. destruct (String.eqb (a_type a) "Peierls"); [eauto|discriminate]. }
  destruct X0 as [ts0 Et0]. pose proof (pr_nt _ _ _ _ P) as NT.
  destruct (terms_double T _ _ _ _ (m_ntypes m0) (Z.to_nat (Z.of_nat (m_ntypes m))) (Z.to_nat (Z.of_nat (m_ntypes m) + 1)) _ NE ltac:(lia) ltac:(lia) Et0) as (us & us' & U1 & U2 & U3 & U4).
  rewrite V1 in U1. rewrite V2 in U2. assert (us = ts) as -> by congruence. assert (us' = ts2) as -> by congruence. clear U1 U2.
  assert (H0 : ham_add Rnum (m_ham m0) (a_type a) (Z.of_nat (m_ntypes m0)) (a_freq a) (a_cs a) (a_dcs a) 1%R =
    Ok ([LDebug], mkHam (h_terms (m_ham m0) ++ ts0) (fs ++ [a_freq a]) (h_dim (m_ham m0)) (h_hop (m_ham m0)))).
  { unfold ham_add. cbv zeta. rewrite <- (pr_hop _ _ _ _ P).
    replace (match a_cs a with Some g0 => match a_dcs a with Some _ => Err ValueError | None => Ok g0 end
      | None => match a_dcs a with Some lam => model_coupling_map Rnum (a_type a) (h_hop (m_ham m)) (a_freq a) lam | None => Err ValueError end end) with (@Ok R g).
    - rewrite Nat2Z.id. change (n_mul Rnum g 1%R) with (g * 1)%R. rewrite Et0. unfold guard. destruct (Z.leb_spec 0 (Z.of_nat (m_ntypes m0))); [|lia]. cbn [bind].
      rewrite (pr_fs0 _ _ _ _ P), F0. reflexivity.
    - destruct Gv as [[-> ->]|[-> [lam [-> G]]]]; [reflexivity|symmetry; exact G]. }
  rewrite H0. cbn [bind]. eexists. eexists. split; [reflexivity|]. split.
  { rewrite in_app_iff. intros [H|[H|[]]]; [|discriminate]. destruct (n_eqb Rnum 0%R (n_0 Rnum) && _); [destruct H as [H|[]]; discriminate|destruct H]. }
  assert (Fh1 : h_freqs h1 = flat_map (fun f => [f; - f]%R) fs ++ [a_freq a]).
  { rewrite Eh1. cbn [h_freqs]. rewrite (pr_fs _ _ _ _ P), F1. reflexivity. }
  assert (Fh2 : h_freqs h2 = flat_map (fun f => [f; - f]%R) fs ++ [a_freq a; - a_freq a]%R).
  { rewrite Eh2. cbn [h_freqs]. rewrite Fh1. change (n_opp Rnum (a_freq a)) with (- a_freq a)%R. rewrite F2, <- app_assoc. reflexivity. }
  constructor; cbn [m_temp m_mps m_ntypes m_ham m_aext m_pe m_pn m_lattice h_dim h_hop h_freqs h_terms].
  - reflexivity.
  - reflexivity.
  - apply (pr_lat _ _ _ _ P).
  - apply (pr_mps _ _ _ _ P).
  - apply (pr_mps0 _ _ _ _ P).
  - lia.
  - rewrite Eh2, Eh1. apply (pr_dim _ _ _ _ P).
  - rewrite Eh2, Eh1. apply (pr_hop _ _ _ _ P).
  - reflexivity.
  - rewrite app_length, (pr_len _ _ _ _ P). cbn. lia.
  - rewrite Fh2, flat_map_app. reflexivity.
  - intros f Hf. apply in_app_or in Hf as [Hf|[<- |[]]]; [apply (pr_pos _ _ _ _ P), Hf|exact Fp].
  - intros h Hh'. pose proof (pr_len _ _ _ _ P) as LN. apply in_app_or in Hh' as [Hh'|Hh'].
    + destruct (pr_idx _ _ _ _ P h Hh') as [I1 I2]. split; [lia|]. rewrite app_nth1 by lia. exact I2.
    + destruct (U4 h Hh') as [I1 I2]. rewrite I1. split; [lia|]. rewrite app_nth2, LN, Nat.sub_diag by lia. exact I2.
  - rewrite Eh2. cbn [h_terms]. rewrite Eh1. cbn [h_terms]. rewrite flat_map_app, <- app_assoc. apply Permutation_app; [apply (pr_terms _ _ _ _ P)|exact U3].
Qed.

Lemma distinct_prefix : forall l l', distinct Rnum (l ++ l') -> distinct Rnum l.
Proof.
  unfold distinct. induction l as [|x r IH]; intros l' H; cbn in *; [constructor|]. inversion H as [|? ? H1 H2]; subst. constructor; [apply Forall_app in H1; apply H1|apply (IH l' H2)].
Qed.
Lemma pair_accepts : forall T l m0 m fs m1, (0 < T)%R -> pair T m0 m fs -> (forall a, In a l -> plain a) -> accepts Rnum m l m1 ->
  distinct Rnum (flat_map (fun f => [f; - f]%R) fs ++ doubled_freqs Rnum l) -> exists m01, accepts Rnum m0 l m01 /\ pair T m01 m1 (fs ++ map a_freq l).
Proof.
  intros T l. induction l as [|a l IH]; intros m0 m fs m1 HT P Pl E Df.
  - cbn in E. subst m1. exists m0. split; [reflexivity|]. rewrite app_nil_r. exact P.
  - destruct E as [logs [m2 [E [L E2]]]].
    assert (X : flat_map (fun f => [f; - f]%R) fs ++ doubled_freqs Rnum (a :: l) = (flat_map (fun f => [f; - f]%R) fs ++ [a_freq a; - a_freq a]%R) ++ doubled_freqs Rnum l) by (unfold doubled_freqs; cbn [flat_map]; rewrite <- app_assoc; reflexivity).
    rewrite X in Df. pose proof (distinct_prefix _ _ Df) as Df1.
    destruct (pair_add T m0 m fs a logs m2 HT P (Pl a (or_introl eq_refl)) E L Df1) as [logs0 [m02 [E0 [L0 P2]]]].
    replace (flat_map (fun f => [f; - f]%R) fs ++ [a_freq a; - a_freq a]%R) with (flat_map (fun f => [f; - f]%R) (fs ++ [a_freq a])) in Df by (rewrite flat_map_app; reflexivity).
    destruct (IH m02 m2 (fs ++ [a_freq a]) m1 HT P2 ltac:(intros; apply Pl; right; assumption) E2 Df) as [m01 [A01 P01]].
    exists m01. split; [exists logs0, m02; auto|]. rewrite <- app_assoc in P01. exact P01.
Qed.
Lemma pair_start : forall T hop lat, pair T (from_parameters hop lat 0%R None 1) (from_parameters hop lat T None 1) [].
Proof. intros. constructor; try reflexivity; [intros f []|intros h []]. Qed.

Lemma nth_pairs : forall (fs : list R) t, (t < List.length fs)%nat -> nth (2 * t) (flat_map (fun f => [f; - f]%R) fs) 0%R = nth t fs 0%R /\ nth (S (2 * t)) (flat_map (fun f => [f; - f]%R) fs) 0%R = (- nth t fs 0)%R.
Proof.
  induction fs as [|f fs IH]; intros t Ht; cbn in Ht; [lia|]. destruct t as [|t]; [cbn; auto|]. destruct (IH t ltac:(lia)) as [A B].
  cbn [flat_map app]. replace (2 * S t)%nat with (S (S (2 * t))) by lia. cbn [nth]. auto.
Qed.
Lemma flat_map_map : forall A B (f g : A -> B) l, flat_map (fun p => [fst p; snd p]) (map (fun a => (f a, g a)) l) = flat_map (fun a => [f a; g a]) l.
Proof. intros A B f g l. induction l as [|a l IH]; [reflexivity|]. cbn [map flat_map app fst snd]. rewrite IH. reflexivity. Qed.

Section Tf.
Variables (T : R) (V Vt : R -> R) (m mT : model R).
Hypothesis HT : (0 < T)%R.
Hypothesis Tf : thermofield T V Vt m mT.
Lemma tf_range : forall h, In h (h_terms (m_ham m)) -> (ht_index h < m_ntypes m)%nat /\ ht_freq h = freq_of m (ht_index h).
Proof.
  intros h Hh. pose proof (tf_index _ _ _ _ _ Tf h Hh) as E. split; [|unfold freq_of; symmetry; apply nth_error_nth; exact E].
  rewrite <- (proj2 (tf_types _ _ _ _ _ Tf)). apply nth_error_Some. congruence.
Qed.
Lemma tf_double : double m mT (fun t => V (freq_of m t)) (fun t => Vt (freq_of m t)).
Proof.
  constructor.
  - apply (tf_lattice _ _ _ _ _ Tf).
  - apply (tf_hop _ _ _ _ _ Tf).
  - apply (tf_mps _ _ _ _ _ Tf).
  - apply (tf_types _ _ _ _ _ Tf).
  - intros t Ht. unfold freq_of. rewrite (tf_freqs _ _ _ _ _ Tf). apply nth_pairs. rewrite (proj2 (tf_types _ _ _ _ _ Tf)). exact Ht.
  - exists (map (fun h => (real_part V h, tilde_part Vt h)) (h_terms (m_ham m))). split; [rewrite flat_map_map; apply (tf_terms _ _ _ _ _ Tf)|].
    assert (I : forall h, In h (h_terms (m_ham m)) -> ht_freq h = freq_of m (ht_index h)) by apply tf_range.
    revert I. generalize (h_terms (m_ham m)). induction l as [|h l IH]; intros I; [constructor|]. cbn [map]. constructor; [|apply IH; intros h' H'; apply I; right; exact H'].
    rewrite <- (I h (or_introl eq_refl)). cbn. repeat split; reflexivity.
Qed.
Lemma tf_bogoliubov : bogoliubov m T (fun t => V (freq_of m t)) (fun t => Vt (freq_of m t)).
Proof.
  intros t Ht. assert (I : In (freq_of m t) (h_freqs (m_ham m))) by (apply nth_In; rewrite (proj2 (tf_types _ _ _ _ _ Tf)); exact Ht).
  destruct (tf_bose _ _ _ _ _ Tf _ I) as (F & C2 & S2). split; [exact F|]. rewrite C2, S2.
  assert (Q : (0 < freq_of m t / T)%R) by (apply Rdiv_lt_0_compat; assumption). assert (X : (1 < exp (freq_of m t / T))%R) by (rewrite <- exp_0 at 1; apply exp_increasing, Q).
  rewrite exp_Ropp. split; field; lra.
Qed.
Theorem tf_thermal : forall c k mu q, moments mT c k mu -> thermal_moment m T c k q (mu q vacuum 0).
Proof.
  intros c k mu q Mu. eapply double_thermal; [exact HT|exact tf_double|exact tf_bogoliubov|apply (tf_mps _ _ _ _ _ Tf)|intros h Hh; apply tf_range, Hh|exact Mu].
Qed.
End Tf.

Lemma pair_thermofield : forall T m0 m fs, (0 < T)%R -> pair T m0 m fs -> thermofield T (Vof T) (Vtof T) m0 m.
Proof.
  intros T m0 m fs HT P. constructor.
  - apply (pr_lat _ _ _ _ P).
  - apply (pr_hop _ _ _ _ P).
  - split; [apply (pr_mps0 _ _ _ _ P)|apply (pr_mps _ _ _ _ P)].
  - split; [apply (pr_nt _ _ _ _ P)|rewrite (pr_fs0 _ _ _ _ P); apply (pr_len _ _ _ _ P)].
  - rewrite (pr_fs0 _ _ _ _ P). apply (pr_fs _ _ _ _ P).
  - intros f Hf. rewrite (pr_fs0 _ _ _ _ P) in Hf. pose proof (pr_pos _ _ _ _ P f Hf) as F. split; [exact F|].
    unfold Vof, Vtof. destruct (tfd_prefactors Rnum T f) as [c s] eqn:E. destruct (C34_prefactors T f c s HT F E) as (_ & C2 & S2 & _). cbn [fst snd]. auto.
  - intros h Hh. destruct (pr_idx _ _ _ _ P h Hh) as [I1 I2]. rewrite I2, (pr_fs0 _ _ _ _ P). apply nth_error_nth'. rewrite (pr_len _ _ _ _ P). exact I1.
  - apply (pr_terms _ _ _ _ P).
Qed.
Theorem calls_thermofield : forall T hop lat l m, (0 < T)%R -> (forall a, In a l -> plain a) -> distinct Rnum (doubled_freqs Rnum l) ->
  accepts Rnum (from_parameters hop lat T None 1) l m ->
  exists m0, accepts Rnum (from_parameters hop lat 0%R None 1) l m0 /\ thermofield T (Vof T) (Vtof T) m0 m.
Proof.
  intros T hop lat l m HT Pl Df A. destruct (pair_accepts T l _ _ [] m HT (pair_start T hop lat) Pl A Df) as [m0 [A0 P]]. exists m0. split; [exact A0|exact (pair_thermofield T m0 m _ HT P)].
Qed.

(** Any model has moments. *)
Lemma row_moments : forall m c k mu, thermal_row m c k vacuum mu -> moments m c k mu.
Proof.
  intros m c k mu R. constructor.
  - apply (tr_support _ _ _ _ _ R).
  - apply (tr_start _ _ _ _ _ R).
  - intros n j H. destruct (classic (full m n)) as [F|F]; [apply (tr_other _ _ _ _ _ R n j F H)|apply (tr_support _ _ _ _ _ R), F].
  - intros q n r j F N. rewrite (tr_next _ _ _ _ _ R q n r j F N) by (intros t x X; exfalso; apply X; reflexivity). rewrite Exact_proofs.energy_vacuum, Rminus_0_r. reflexivity.
Qed.
Lemma moments_any : forall m c k, m_mps m = None -> exists mu, moments m c k mu.
Proof.
  intros m c k H. destruct (row_ex m c k vacuum) as [mu R]; [|exists mu; apply row_moments, R]. split; [intros; unfold vacuum; lia|]. split; [exists 0; intros t x X; exfalso; apply X; reflexivity|]. intros i E. rewrite H in E. discriminate.
Qed.

(** * The second moment of any model *)
Definition spot (h : hterm R) : bool := match ht_dag h with Plus => true | Minus => false end.
Definition back (c : Z) (h h' : hterm R) : bool :=
  (negb (spot h') && Nat.eqb (ht_index h') (ht_index h) && (mode c h' (target h 0) =? mode c h 0))%bool.
Section Second.
Variable m : model R.
Variable c : Z.
Variable k : R.
Hypothesis Hmps : m_mps m = None.
Hypothesis Hidx : forall h, In h (h_terms (m_ham m)) -> (ht_index h < m_ntypes m)%nat.
Variable mu : nat -> placement -> Z -> C.
Hypothesis Mu : moments m c k mu.
Let hs := h_terms (m_ham m).
Let ph (j : Z) : C := Cexpi (- (k * m_lattice m * IZR j)).
Let hop := RtoC (h_hop (m_ham m)).

Lemma vac_full : full m vacuum.
Proof. split; [intros; unfold vacuum; lia|]. split; [exists 0; intros t x X; exfalso; apply X; reflexivity|]. intros i E. rewrite Hmps in E. discriminate. Qed.
Lemma one_full : forall t x, (t < m_ntypes m)%nat -> full m (changed vacuum t x 1) /\ near (m_ntypes m) (Z.abs x) (changed vacuum t x 1).
Proof.
  intros t x Ht. assert (N : near (m_ntypes m) (Z.abs x) (changed vacuum t x 1)) by (apply near_changed; auto; [lia|intros t' x' X; exfalso; apply X; reflexivity]). split; [|exact N].
  apply (full_changed m vacuum t x 1 (Z.abs x)); auto; [lia|intros t' x' X; exfalso; apply X; reflexivity|exact vac_full|unfold vacuum; lia].
Qed.
Lemma Csum_zero : forall A (f : A -> C) l, (forall a, In a l -> f a = C0) -> Csum_list (map f l) = C0.
Proof. intros A f l H. induction l as [|a l IH]; [reflexivity|]. cbn [map]. rewrite Csum_cons, H, IH; [ring|intros b B; apply H; right; exact B|left; reflexivity]. Qed.
Lemma first_vacuum : forall j, mu 1 vacuum j = Copp (Cmul hop (Cadd (ph (j + 1)) (ph (j - 1)))).
Proof.
  intros j. rewrite (mo_next _ _ _ _ Mu 0 vacuum 0 j vac_full) by (intros t x X; exfalso; apply X; reflexivity). unfold on_H. rewrite Exact_proofs.energy_vacuum, !(mo_start _ _ _ _ Mu). fold (ph (j + 1)) (ph (j - 1)) hop.
  rewrite Csum_zero; [rewrite RtoC_0; ring|]. intros h _. unfold factor, after. destruct (ht_dag h).
  - rewrite (mo_phonons _ _ _ _ Mu); [ring|]. exists (ht_index h), (mode c h j). rewrite changed_hit. unfold vacuum. lia.
  - unfold vacuum. rewrite Rmult_0_r, RtoC_0. ring.
Qed.
Lemma first_one : forall h, In h hs -> spot h = true ->
  mu 1 (after c h vacuum 0) (target h 0) = Copp (Csum_list (map (fun h' => if back c h h' then Cmul (RtoC (ht_coupling h')) (ph (target h' (target h 0))) else C0) hs)).
Proof.
  intros h Hh Sp. unfold spot in Sp. destruct (ht_dag h) eqn:Ed; [|discriminate]. set (t := ht_index h). set (x := mode c h 0). set (j := target h 0).
  assert (Ea : after c h vacuum 0 = changed vacuum t x 1) by (unfold after; rewrite Ed; reflexivity). rewrite Ea.
  destruct (one_full t x (Hidx h Hh)) as [F N]. rewrite (mo_next _ _ _ _ Mu 0 _ _ j F N). unfold on_H.
  rewrite !(mo_phonons _ _ _ _ Mu (changed vacuum t x 1)) by (exists t, x; rewrite changed_hit; unfold vacuum; lia).
  rewrite (Csum_ext _ _ (fun h' => if back c h h' then Cmul (RtoC (ht_coupling h')) (ph (target h' j)) else C0)); [fold hs; ring|].
  intros h' Hh'. unfold factor, after, back, spot. fold t x j. destruct (ht_dag h'); cbn [negb andb].
  - rewrite (mo_phonons _ _ _ _ Mu); [ring|]. exists (ht_index h'), (mode c h' j). rewrite changed_hit. pose proof (proj1 F (ht_index h') (mode c h' j)). lia.
  - destruct (mode_dec (ht_index h', mode c h' j) (t, x)) as [E|E].
    + injection E as E1 E2. rewrite E1, E2, hit, changed_hit. unfold vacuum. rewrite Rmult_1_r.
      replace (changed (changed (fun _ _ => 0) t x 1) t x (-1)) with vacuum.
      * rewrite (mo_start _ _ _ _ Mu). reflexivity.
      * apply functional_extensionality. intros t'. apply functional_extensionality. intros x'. unfold changed, vacuum. destruct (Nat.eqb t' t && (x' =? x))%bool; reflexivity.
    + rewrite miss by exact E. rewrite changed_miss by exact E. unfold vacuum. rewrite Rmult_0_r, RtoC_0. ring.
Qed.
Theorem second_moment : mu 2 vacuum 0 = Cadd (Cmul (Cmul hop hop) (Cadd (Cadd (ph 2) (ph (-2))) (Cadd (ph 0) (ph 0))))
  (Csum_list (map (fun h => if spot h then Cmul (RtoC (ht_coupling h)) (Csum_list (map (fun h' => if back c h h' then Cmul (RtoC (ht_coupling h')) (ph (target h' (target h 0))) else C0) hs)) else C0) hs)).
Proof.
  rewrite (mo_next _ _ _ _ Mu 1 vacuum 0 0 vac_full) by (intros t x X; exfalso; apply X; reflexivity). unfold on_H. rewrite Exact_proofs.energy_vacuum, !first_vacuum. fold hop hs.
  rewrite (Csum_ext _ _ (fun h => Cmul (Copp C1) (if spot h then Cmul (RtoC (ht_coupling h)) (Csum_list (map (fun h' => if back c h h' then Cmul (RtoC (ht_coupling h')) (ph (target h' (target h 0))) else C0) hs)) else C0))).
  - rewrite Extent_proofs.Csum_list_scal. change (0 + 1 + 1) with 2. change (0 + 1 - 1) with 0. change (0 - 1 + 1) with 0. change (0 - 1 - 1) with (-2). rewrite RtoC_0. ring.
  - intros h Hh. destruct (spot h) eqn:Sp.
    + rewrite (first_one h Hh Sp). unfold factor. unfold spot in Sp. destruct (ht_dag h); [|discriminate]. rewrite Rmult_1_r. ring.
    + unfold factor. unfold spot in Sp. destruct (ht_dag h); [discriminate|]. unfold vacuum. rewrite Rmult_0_r, RtoC_0. ring.
Qed.
End Second.
