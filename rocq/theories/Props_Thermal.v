(** Property theorem C72: at a temperature, the moments of the spectral function
    that the code approximates are those of the thermal average. *)
From Coq Require Import String ZArith List Bool Lia Permutation Reals Lra.
From Verif Require Import Base NdArray Config Spec Model HModel Space Spec_space Term Equation System Spec_engine Props_Engine
  Ring Coef Spec_eom Solvers Spec_solve LinSolve Spec_model Spec_sym Cplx Physics Props_Physics Props_Model Props_Solve Props_Sym Spec_spectral
  Spec_green Spec_cutoff Spec_exact Spec_moments Props_Moments Spec_thermal.
From Verif Require HModel_proofs Double_proofs Thermal_proofs Thermocalls_proofs.
Import ListNotations.
Open Scope list_scope.
Open Scope Z_scope.

(** The functionals <k, n| (H - E_n)^q exist and are unique, and so are the
    moments at a temperature. *)
Theorem C72_defined : forall m c k,
  (exists mu, forall n0, full m n0 -> thermal_row m c k n0 (mu n0)) /\
  (forall n0 mu mu', full m n0 -> thermal_row m c k n0 mu -> thermal_row m c k n0 mu' -> forall q n j, mu q n j = mu' q n j) /\
  (forall T q s s', thermal_moment m T c k q s -> thermal_moment m T c k q s' -> s = s').
Proof.
  intros m c k. split; [exact (Thermal_proofs.rows_ex m c k)|]. split; [intros n0 mu mu' F; exact (Thermal_proofs.row_unique m c k n0 F mu mu')|].
  intros T q s s'. exact (Thermal_proofs.thermal_unique m T c k q s s').
Qed.
Print Assumptions C72_defined.

(** The thermofield double without phonons has the moments of the thermal
    average. *)
Theorem C72_double : forall T V Vt m mT c k mu q, (0 < T)%R -> thermofield T V Vt m mT -> moments mT c k mu -> thermal_moment m T c k q (mu q vacuum 0).
Proof. intros T V Vt m mT c k mu q HT Tf Mu. exact (Thermocalls_proofs.tf_thermal T V Vt m mT HT Tf c k mu q Mu). Qed.
Print Assumptions C72_double.

(** The same calls of add_ at temperature T and at 0 make a thermofield double
    and its model, unless the coupling is EdwardsFermionBoson. *)
Theorem C72_calls : forall T hop lat l m, (0 < T)%R ->
  (forall a, In a l -> a_override a = None /\ (0 < a_freq a)%R /\ a_type a <> "EdwardsFermionBoson"%string) -> distinct Rnum (doubled_freqs Rnum l) ->
  accepts Rnum (from_parameters hop lat T None 1) l m ->
  exists m0, accepts Rnum (from_parameters hop lat 0%R None 1) l m0 /\ exists V Vt, thermofield T V Vt m0 m.
Proof.
  intros T hop lat l m HT Pl Df A. destruct (Thermocalls_proofs.calls_thermofield T hop lat l m HT Pl Df A) as [m0 [A0 Tf]]. exists m0. split; [exact A0|]. eexists. eexists. exact Tf.
Qed.
Print Assumptions C72_calls.

(** What the code computes at temperature T: with d phonons of each type, the
    fictitious ones included, on d + 3 sites, the first 2 d + 2 moments are those
    of the thermal average of the Hamiltonian on all states. *)
Theorem C72_computed : forall T hop lat l m, (0 < T)%R -> l <> [] ->
  (forall a, In a l -> a_override a = None /\ (0 < a_freq a)%R /\ a_type a <> "EdwardsFermionBoson"%string) -> distinct Rnum (doubled_freqs Rnum l) ->
  (forall a, In a l -> a_type a = "BondPeierls"%string) \/ (forall a, In a l -> a_type a <> "BondPeierls"%string) ->
  lat = 1%R \/ hop = 0%R -> (0 <= hop)%R -> accepts Rnum (from_parameters hop lat T None 1) l m ->
  exists m0 c (B : nat -> R), accepts Rnum (from_parameters hop lat 0%R None 1) l m0 /\ forall k, exists th, (forall q, thermal_moment m0 T c k q (th q)) /\
    forall m' ae' d w eta ord sp, good_model m' ae' -> same_physics m m' -> room m m' ae' (Z.of_nat d + 3) (Z.of_nat d) -> (0 < eta)%R ->
      (forall k l, Permutation (ord k l) l) -> spsolve_ok sp ->
      exists g : C, greens (phys_env m' k w eta) sp ord m' = Ok g /\
        (Cabs (w, eta) ^ (2 * d + 2) * Cabs (Csub g (series (w, eta) th (2 * d + 2))) <= B d / eta)%R.
Proof.
  intros T hop lat l m HT Ln Pl Df Bp Hl Ht A. destruct (C72_calls T hop lat l m HT Pl Df A) as [m0 [A0 [V [Vt Tf]]]].
  assert (hot : n_ltb Rnum (n_0 Rnum) T = true) by (cbn; destruct (Rlt_dec 0 T); [reflexivity|contradiction]).
  assert (O : forallb (fun a => is_none (a_override a)) l = true). { apply forallb_forall. intros a Ha. destruct (Pl a Ha) as [-> _]. reflexivity. }
  pose proof (acc_built R Rnum (proj1 Rnum_ok) 1%nat l _ [] [] m (built_start Rnum 1%nat hop lat T None) A O) as Bt. cbn [from_parameters m_temp app] in Bt. rewrite hot in Bt.
  fold (doubled_freqs Rnum l) in Bt. destruct (Double_proofs.accepts_pe Rnum (proj1 Rnum_ok) l (from_parameters hop lat T None 1) m hot A) as [_ Ea]. cbn [from_parameters m_aext] in Ea.
  assert (HL : m_lattice m = lat /\ h_hop (m_ham m) = hop).
  { assert (X : forall q x y, accepts Rnum x q y -> m_lattice y = m_lattice x /\ h_hop (m_ham y) = h_hop (m_ham x)).
    { induction q as [|a q IH]; intros x y H; cbn in H; [subst; auto|]. destruct H as [lg [z [E [L H]]]]. destruct (IH _ _ H) as [-> ->].
      destruct (HModel_proofs.add_outcome_any Rnum (proj1 Rnum_ok) x a lg z E L) as [_ [_ [g [_ D]]]]. unfold added in D. cbv zeta in D. destruct D as [D1 [_ [_ [_ [_ [D2 _]]]]]]. auto. }
    exact (X l _ m A). }
  destruct HL as [HL1 HL2].
  destruct (C69_histories m (doubled_freqs Rnum l) (map a_type l) Bt) as [c [B HB]].
  - destruct l; [contradiction|discriminate].
  - exact Df.
  - intros q E. rewrite (proj2 (tf_mps _ _ _ _ _ Tf)) in E. discriminate.
  - intros e E. congruence.
  - destruct Bp as [Bp|Bp]; [left|right]; intros x Hx; apply in_map_iff in Hx as [a [<- Ha]]; apply Bp, Ha.
  - unfold exact_lattice. rewrite HL1, HL2. exact Hl.
  - rewrite HL2. exact Ht.
  - exists m0, c, B. split; [exact A0|]. intros k. destruct (HB k) as [mu [Mu Q]]. exists (fun q => mu q vacuum 0). split; [intros q; exact (C72_double T V Vt m0 m c k mu q HT Tf Mu)|]. exact Q.
Qed.
Print Assumptions C72_computed.

(** * Values *)
Lemma plain_bose : forall T f, (0 < T)%R -> (0 < f)%R -> (fst (tfd_prefactors Rnum T f) * fst (tfd_prefactors Rnum T f) = 1 + bose T f)%R /\ (snd (tfd_prefactors Rnum T f) * snd (tfd_prefactors Rnum T f) = bose T f)%R.
Proof. intros T f HT Hf. destruct (tfd_prefactors Rnum T f) as [c s] eqn:E. destruct (C34_prefactors T f c s HT Hf E) as (_ & C2 & S2 & _). auto. Qed.

Lemma phase_0 : forall a, Cexpi (- (a * 0)) = C1.
Proof. intros a. unfold Cexpi, C1. rewrite Rmult_0_r, Ropp_0, cos_0, sin_0. reflexivity. Qed.
Lemma phase_pair : forall a, Cadd (Cexpi (- (a * 2))) (Cexpi (- (a * -2))) = RtoC (2 * cos (2 * a)).
Proof.
  intros a. replace (- (a * 2))%R with (- (2 * a))%R by ring. replace (- (a * -2))%R with (2 * a)%R by ring. unfold Cexpi, RtoC, Cadd, Re, Im. cbn [fst snd]. rewrite cos_neg, sin_neg. f_equal; ring.
Qed.

Definition call_of (ty : string) (f g : R) (M N Mt Nt : Z) : add_args R := mkAdd ty f M N (Some Mt) (Some Nt) (Some g) None None.
(** What one call makes of a model. *)
Definition one (T hop lat f V Vt : R) (ts ts' : list (hterm R)) (M N Mt Nt : Z) : model R :=
  mkModel lat T (mkHam (ts ++ ts') [f; - f]%R 1 hop) None [M; Mt] [N; Nt] None 2.
Lemma one_hot : forall T hop lat ty f g M N Mt Nt logs m, (0 < T)%R -> (0 < f)%R -> model_add Rnum (from_parameters hop lat T None 1) (call_of ty f g M N Mt Nt) = Ok (logs, m) -> ~ In LError logs ->
  exists ts ts', get_terms Rnum 1 ty (g * fst (tfd_prefactors Rnum T f))%R 0 f = Some ts /\ get_terms Rnum 1 ty (g * snd (tfd_prefactors Rnum T f))%R 1 (- f)%R = Some ts' /\
    m = one T hop lat f (fst (tfd_prefactors Rnum T f)) (snd (tfd_prefactors Rnum T f)) ts ts' M N Mt Nt.
Proof.
  intros T hop lat ty f g M N Mt Nt logs m HT Hf E L.
  destruct (HModel_proofs.acceptable_dec Rnum (from_parameters hop lat T None 1) (call_of ty f g M N Mt Nt)) as [A|A].
  2:{ rewrite (HModel_proofs.add_rejects Rnum _ _ A) in E. exfalso. apply L. assert (logs = [LError]) as -> by congruence. left. reflexivity. }
  assert (hot : n_ltb Rnum (n_0 Rnum) T = true) by (cbn; destruct (Rlt_dec 0 T); [reflexivity|contradiction]).
  unfold model_add in E. cbv zeta in E. rewrite (HModel_proofs.add_passes Rnum _ _ A) in E. cbn [from_parameters m_temp m_ntypes m_ham m_lattice m_mps m_pe m_pn m_aext call_of a_type a_freq a_M a_N a_Mtfd a_Ntfd a_cs a_dcs a_override] in E. rewrite hot in E.
  destruct (tfd_prefactors Rnum T f) as [V Vt]. cbn [fst snd].
  destruct (ham_add Rnum _ ty (Z.of_nat 0) f (Some g) None V) as [[l1 h1]|] eqn:E1; [|discriminate]. cbn [bind] in E.
  destruct (ham_add Rnum h1 ty (Z.of_nat 0 + 1) (n_opp Rnum f) (Some g) None Vt) as [[l2 h2]|] eqn:E2; [|discriminate]. cbn [bind m_pe m_pn m_ntypes] in E.
  match type of E with Ok (?x, ?y) = _ => assert (EL : x = logs) by congruence; assert (y = m) by congruence end. subst m.
  destruct (Double_proofs.ham_add_inv Rnum _ _ _ _ _ _ _ _ _ E1) as [g1 [ts [Gv [Et [_ [-> ->]]]]]]; [intros H; apply L; rewrite <- EL; apply in_or_app; right; apply in_or_app; left; exact H|].
  destruct (Double_proofs.ham_add_inv Rnum _ _ _ _ _ _ _ _ _ E2) as [g2 [ts2 [Gv2 [Et2 [_ [-> ->]]]]]]; [intros H; apply L; rewrite <- EL; apply in_or_app; right; apply in_or_app; right; exact H|].
  assert (g1 = g) as -> by (destruct Gv as [[X _]|[X _]]; congruence). assert (g2 = g) as -> by (destruct Gv2 as [[X _]|[X _]]; congruence).
  exists ts, ts2. split; [exact Et|]. split; [exact Et2|]. unfold one. cbn [h_terms h_freqs h_dim h_hop app existsb Rnum n_eqb n_opp]. destruct (Req_EM_T (- f) f) as [X|X]; [lra|]. reflexivity.
Qed.
Ltac walk := cbn [map app];
  repeat match goal with |- context [Thermocalls_proofs.spot ?h] => let b := eval vm_compute in (Thermocalls_proofs.spot h) in change (Thermocalls_proofs.spot h) with b end;
  repeat match goal with |- context [Thermocalls_proofs.back ?c ?h ?h'] => let b := eval vm_compute in (Thermocalls_proofs.back c h h') in change (Thermocalls_proofs.back c h h') with b end;
  cbv iota;
  repeat match goal with |- context [target ?h' (target ?h 0)] => let b := eval vm_compute in (target h' (target h 0)) in change (target h' (target h 0)) with b end;
  cbn [ht_coupling].
Lemma below : forall ts n, forallb (fun h : hterm R => Nat.ltb (ht_index h) n) ts = true -> forall h, In h ts -> (ht_index h < n)%nat.
Proof. intros ts n H h Hh. apply Nat.ltb_lt. rewrite forallb_forall in H. apply H, Hh. Qed.

(** Holstein: the variance is g^2 (1 + 2 n) and vanishes for no temperature. *)
Theorem C72_holstein : forall T hop lat f g M N Mt Nt logs m k mu, (0 < T)%R -> (0 < f)%R ->
  model_add Rnum (from_parameters hop lat T None 1) (call_of "Holstein" f g M N Mt Nt) = Ok (logs, m) -> ~ In LError logs -> moments m 0 k mu ->
  mu 2%nat vacuum 0 = RtoC ((2 * hop * cos (k * lat)) ^ 2 + g ^ 2 * (1 + 2 * bose T f)).
Proof.
  intros T hop lat f g M N Mt Nt logs m k mu HT Hf E L Mu. destruct (one_hot T hop lat _ f g M N Mt Nt logs m HT Hf E L) as [ts [ts' [E1 [E2 Em]]]]. destruct (plain_bose T f HT Hf) as [C2 S2].
  set (V := fst _) in *. set (Vt := snd _) in *. unfold get_terms in E1, E2. cbn [String.eqb Ascii.eqb Bool.eqb n_opp Rnum] in E1, E2.
  match type of E1 with Some ?x = _ => assert (x = ts) as <- by congruence end. match type of E2 with Some ?x = _ => assert (x = ts') as <- by congruence end. subst m.
  match type of Mu with moments ?mm _ _ _ => rewrite (Thermocalls_proofs.second_moment mm 0 k (eq_refl None) (below (h_terms (m_ham mm)) (m_ntypes mm) eq_refl) mu Mu) end.
  cbn [one m_ham h_terms h_hop m_lattice]. walk. rewrite phase_0. replace (-2) with (- (2)) by reflexivity. rewrite phase_pair.
  unfold Csum_list. cbn [fold_right]. rewrite cos_2a_cos. apply Ceq; unfold RtoC, Cadd, Cmul, C0, C1, Re, Im; cbn [fst snd]; [|ring].
  replace (1 + 2 * bose T f)%R with (V * V + Vt * Vt)%R by lra. ring.
Qed.
Print Assumptions C72_holstein.

Lemma one_cold : forall hop lat ty f g M N Mt Nt logs m, model_add Rnum (from_parameters hop lat 0%R None 1) (call_of ty f g M N Mt Nt) = Ok (logs, m) -> ~ In LError logs ->
  exists ts, get_terms Rnum 1 ty (g * 1)%R 0 f = Some ts /\ m = mkModel lat 0%R (mkHam ts [f] 1 hop) None [M] [N] None 1.
Proof.
  intros hop lat ty f g M N Mt Nt logs m E L.
  destruct (HModel_proofs.acceptable_dec Rnum (from_parameters hop lat 0%R None 1) (call_of ty f g M N Mt Nt)) as [A|A].
  2:{ rewrite (HModel_proofs.add_rejects Rnum _ _ A) in E. exfalso. apply L. assert (logs = [LError]) as -> by congruence. left. reflexivity. }
  assert (cold : n_ltb Rnum (n_0 Rnum) 0%R = false) by (cbn; destruct (Rlt_dec 0 0); [lra|reflexivity]).
  unfold model_add in E. cbv zeta in E. rewrite (HModel_proofs.add_passes Rnum _ _ A) in E. cbn [from_parameters m_temp m_ntypes m_ham m_lattice m_mps m_pe m_pn m_aext call_of a_type a_freq a_M a_N a_Mtfd a_Ntfd a_cs a_dcs a_override] in E. rewrite cold in E.
  unfold tfd_prefactors in E. rewrite cold in E.
  destruct (ham_add Rnum _ ty (Z.of_nat 0) f (Some g) None (n_1 Rnum)) as [[l1 h1]|] eqn:E1; [|discriminate]. cbn [bind] in E.
  match type of E with Ok (?x, ?y) = _ => assert (EL : x = logs) by congruence; assert (y = m) by congruence end. subst m.
  destruct (Double_proofs.ham_add_inv Rnum _ _ _ _ _ _ _ _ _ E1) as [g1 [ts [Gv [Et [_ [-> ->]]]]]]; [intros H; apply L; rewrite <- EL; apply in_or_app; right; exact H|].
  assert (g1 = g) as -> by (destruct Gv as [[X _]|[X _]]; congruence). exists ts. split; [exact Et|reflexivity].
Qed.

(** EdwardsFermionBoson: the fictitious copy has b'+ where the thermofield double
    has b', and the second moment is another one. *)
Theorem C72_edwards_values : forall T hop lat f g M N Mt Nt logs logs0 m m0 k mu, (0 < T)%R -> (0 < f)%R ->
  model_add Rnum (from_parameters hop lat T None 1) (call_of "EdwardsFermionBoson" f g M N Mt Nt) = Ok (logs, m) -> ~ In LError logs ->
  model_add Rnum (from_parameters hop lat 0%R None 1) (call_of "EdwardsFermionBoson" f g M N Mt Nt) = Ok (logs0, m0) -> ~ In LError logs0 -> moments m 0 k mu ->
  mu 2%nat vacuum 0 = RtoC ((2 * hop * cos (k * lat)) ^ 2 + 2 * g ^ 2 * (1 + 2 * bose T f)) /\
  thermal_moment m0 T 0 k 2 (RtoC ((2 * hop * cos (k * lat)) ^ 2 + 2 * g ^ 2 * (1 + 2 * bose T f) + 2 * g ^ 2 * bose T f * cos (2 * (k * lat)))).
Proof.
  intros T hop lat f g M N Mt Nt logs logs0 m m0 k mu HT Hf E L E0 L0 Mu. destruct (one_hot T hop lat _ f g M N Mt Nt logs m HT Hf E L) as [ts [ts' [E1 [E2 Em]]]].
  destruct (one_cold hop lat _ f g M N Mt Nt logs0 m0 E0 L0) as [ts0 [E3 Em0]]. destruct (plain_bose T f HT Hf) as [C2 S2].
  set (V := fst _) in *. set (Vt := snd _) in *. unfold get_terms in E1, E2, E3. cbn [String.eqb Ascii.eqb Bool.eqb n_opp Rnum] in E1, E2, E3.
  match type of E1 with Some ?x = _ => assert (x = ts) as <- by congruence end. match type of E2 with Some ?x = _ => assert (x = ts') as <- by congruence end.
  match type of E3 with Some ?x = _ => assert (x = ts0) as <- by congruence end. clear E E0 E1 E2 E3. subst m. split.
  - match type of Mu with moments ?mm _ _ _ => rewrite (Thermocalls_proofs.second_moment mm 0 k (eq_refl None) (below (h_terms (m_ham mm)) (m_ntypes mm) eq_refl) mu Mu) end.
    cbn [one m_ham h_terms h_hop m_lattice]. walk. rewrite phase_0. replace (-2) with (- (2)) by reflexivity. rewrite phase_pair.
    unfold Csum_list. cbn [fold_right]. set (a := RtoC (g * V)). set (b := RtoC (g * Vt)). set (u := RtoC hop). set (X := RtoC (2 * cos (2 * (k * lat)))).
    transitivity (Cadd (Cmul (Cmul u u) (Cadd X (Cadd C1 C1))) (Cmul (Cadd C1 C1) (Cadd (Cmul a a) (Cmul b b)))); [ring|]. subst a b u X.
    rewrite cos_2a_cos. apply Ceq; unfold RtoC, Cadd, Cmul, C0, C1, Re, Im; cbn [fst snd]; [|ring].
    replace (1 + 2 * bose T f)%R with (V * V + Vt * Vt)%R by lra. ring.
  - set (mT := mkModel lat T (mkHam (flat_map (fun h => [real_part (fun _ => V) h; tilde_part (fun _ => Vt) h]) (h_terms (m_ham m0))) [f; - f]%R 1 hop) None [] [] None 2 : model R).
    assert (Tf : thermofield T (fun _ => V) (fun _ => Vt) m0 mT).
    { subst m0. constructor; try reflexivity; try (split; reflexivity).
      - intros x [<- |[]]. split; [exact Hf|]. split; [exact C2|exact S2].
      - intros h Hh. repeat (destruct Hh as [<- |Hh]; [reflexivity|]). destruct Hh. }
    destruct (Thermocalls_proofs.moments_any mT 0 k eq_refl) as [nu Nu]. pose proof (C72_double T _ _ m0 mT 0 k nu 2%nat HT Tf Nu) as Th.
    replace (RtoC _) with (nu 2%nat vacuum 0); [exact Th|]. clear Th Tf. subst m0.
    assert (Nu' : moments (one T hop lat f V Vt (flat_map (fun h => [real_part (fun _ => V) h; tilde_part (fun _ => Vt) h]) [
      mkHterm "EdwardsFermionBoson" (ivec [1]) (ivec [1]) Plus (g * 1)%R 0 f; mkHterm "EdwardsFermionBoson" (ivec [-1]) (ivec [-1]) Plus (g * 1)%R 0 f;
      mkHterm "EdwardsFermionBoson" (ivec [1]) (ivec [0]) Minus (g * 1)%R 0 f; mkHterm "EdwardsFermionBoson" (ivec [-1]) (ivec [0]) Minus (g * 1)%R 0 f]) [] 1 1 1 1) 0 k nu) by (destruct Nu; constructor; assumption).
    match type of Nu' with moments ?mm _ _ _ => rewrite (Thermocalls_proofs.second_moment mm 0 k (eq_refl None) (below (h_terms (m_ham mm)) (m_ntypes mm) eq_refl) nu Nu') end.
    cbn [one m_ham h_terms h_hop m_lattice flat_map real_part tilde_part ht_type ht_psi ht_phi ht_dag ht_coupling ht_index ht_freq flipped]. walk. rewrite phase_0. replace (-2) with (- (2)) by reflexivity.
    set (p2 := Cexpi (- (k * lat * 2))). set (m2 := Cexpi (- (k * lat * IZR (- (2))))). assert (PP : Cadd p2 m2 = RtoC (2 * cos (2 * (k * lat)))) by apply phase_pair.
    unfold Csum_list, real_part, tilde_part. cbn [fold_right ht_coupling]. set (a := RtoC (g * 1 * V)). set (b := RtoC (g * 1 * Vt)). set (u := RtoC hop).
    transitivity (Cadd (Cmul (Cmul u u) (Cadd (Cadd p2 m2) (Cadd C1 C1))) (Cadd (Cmul (Cadd C1 C1) (Cadd (Cmul a a) (Cmul b b))) (Cmul (Cmul b b) (Cadd p2 m2)))); [ring|]. subst a b u.
    rewrite PP, cos_2a_cos. apply Ceq; unfold RtoC, Cadd, Cmul, C0, C1, Re, Im; cbn [fst snd]; [|ring].
    replace (bose T f) with (Vt * Vt)%R by lra. replace (1 + 2 * (Vt * Vt))%R with (V * V + Vt * Vt)%R by lra. ring.
Qed.
Print Assumptions C72_edwards_values.

Lemma bose_pos : forall T f, (0 < T)%R -> (0 < f)%R -> (0 < bose T f)%R.
Proof.
  intros T f HT Hf. unfold bose. assert (Q : (0 < f / T)%R) by (apply Rdiv_lt_0_compat; assumption). assert (X : (1 < exp (f / T))%R) by (rewrite <- exp_0 at 1; apply exp_increasing, Q).
  apply Rdiv_lt_0_compat; lra.
Qed.
(** Calls with a coupling strength are accepted. *)
Definition fine (a : add_args R) : Prop := supported (a_type a) /\ a_cs a <> None /\ a_dcs a = None /\ a_override a = None /\ 1 <= a_M a /\ 1 <= a_N a /\
  (exists M, a_Mtfd a = Some M /\ 1 <= M) /\ (exists N, a_Ntfd a = Some N /\ 1 <= N).
Lemma fine_accepted : forall l m, Forall fine l -> exists m', accepts Rnum m l m'.
Proof.
  intros l. induction l as [|a l IH]; intros m F; [exists m; reflexivity|]. inversion F as [|? ? F1 F2]; subst. destruct F1 as (Sp & Cs & Ds & Ov & HM & HN & (M & EM & M1) & (N & EN & N1)).
  destruct (a_cs a) as [g|] eqn:Eg; [|contradiction].
  assert (A : acceptable Rnum m a).
  { constructor; try assumption.
    - intros _. split; congruence.
    - intros x E. congruence.
    - intros x E. congruence.
    - right. split; congruence.
    - intros o E. congruence. }
  destruct (C32_added R Rnum (proj1 Rnum_ok) m a g A Sp (or_introl Eg)) as [logs [m1 [E [L _]]]]; [intros o X; congruence|].
  destruct (IH m1 F2) as [m' A']. exists m', logs, m1. auto.
Qed.
Lemma fine_call : forall ty f g M N Mt Nt, supported ty -> 1 <= M -> 1 <= N -> 1 <= Mt -> 1 <= Nt -> fine (call_of ty f g M N Mt Nt).
Proof. intros. unfold fine, call_of. cbn [a_type a_cs a_dcs a_override a_M a_N a_Mtfd a_Ntfd]. split; [assumption|]. split; [discriminate|]. split; [reflexivity|]. split; [reflexivity|]. split; [assumption|]. split; [assumption|]. split; eexists; split; try reflexivity; assumption. Qed.

(** For every temperature, and unless cos (2 k a) = 0, the code's second moment
    is not the thermal one. *)
Theorem C72_edwards_refuted : forall T hop lat f g M N Mt Nt k, (0 < T)%R -> (0 < f)%R -> g <> 0%R -> cos (2 * (k * lat)) <> 0%R -> 1 <= M -> 1 <= N -> 1 <= Mt -> 1 <= Nt ->
  exists m m0, accepts Rnum (from_parameters hop lat T None 1) [call_of "EdwardsFermionBoson" f g M N Mt Nt] m /\
    accepts Rnum (from_parameters hop lat 0%R None 1) [call_of "EdwardsFermionBoson" f g M N Mt Nt] m0 /\
    forall mu, moments m 0 k mu -> ~ thermal_moment m0 T 0 k 2 (mu 2%nat vacuum 0).
Proof.
  intros T hop lat f g M N Mt Nt k HT Hf Hg Hk H1 H2 H3 H4.
  assert (F : Forall fine [call_of "EdwardsFermionBoson" f g M N Mt Nt]) by (constructor; [apply fine_call; try assumption; right; left; reflexivity|constructor]).
  destruct (fine_accepted _ (from_parameters hop lat T None 1) F) as [m A]. destruct (fine_accepted _ (from_parameters hop lat 0%R None 1) F) as [m0 A0]. exists m, m0. split; [exact A|]. split; [exact A0|].
  destruct A as [logs [m1 [E [L Em]]]]. cbn in Em. subst m1. destruct A0 as [logs0 [m1 [E0 [L0 Em]]]]. cbn in Em. subst m1. intros mu Mu Th.
  destruct (C72_edwards_values T hop lat f g M N Mt Nt logs logs0 m m0 k mu HT Hf E L E0 L0 Mu) as [V1 V2].
  pose proof (proj2 (proj2 (C72_defined m0 0 k)) T 2%nat _ _ Th V2) as X. rewrite V1 in X. injection X as X. pose proof (bose_pos T f HT Hf) as B.
  assert (P : (2 * g ^ 2 * bose T f * cos (2 * (k * lat)) = 0)%R) by lra.
  apply Rmult_integral in P as [P|P]; [|contradiction]. apply Rmult_integral in P as [P|P]; [|lra]. assert (g * g = 0)%R by lra. nra.
Qed.
Print Assumptions C72_edwards_refuted.

(** Two couplings at temperature 1, room for d = 1, and a value. *)
Definition two_calls : list (add_args R) := [call_of "Holstein" 1 1 4 1 4 1; call_of "Peierls" 2 1 4 1 4 1].
Lemma accepts_pn : forall l m m1, n_ltb Rnum (n_0 Rnum) (m_temp m) = true -> accepts Rnum m l m1 ->
  m_pn m1 = m_pn m ++ flat_map (fun a => [a_N a; match a_Ntfd a with Some x => x | None => 0 end]) l /\ m_ntypes m1 = (m_ntypes m + 2 * List.length l)%nat /\ m_mps m1 = m_mps m.
Proof.
  induction l as [|a l IH]; intros m m1 H A; cbn in A.
  - subst. rewrite app_nil_r. cbn [List.length]. split; [reflexivity|]. split; [lia|reflexivity].
  - destruct A as [lg [x [E [L A]]]]. destruct (HModel_proofs.add_outcome_any Rnum (proj1 Rnum_ok) m a lg x E L) as [_ [_ [g [_ D]]]]. unfold added in D. cbv zeta in D. rewrite H in D.
    destruct D as (_ & Et & Em & _ & _ & _ & ts & _ & Mt & Nt & ts' & fs & _ & EN & _ & _ & Ep & En & _).
    destruct (IH x m1) as [I1 [I2 I3]]; [rewrite Et; exact H|exact A|]. rewrite I1, I2, I3, Ep, En, Em, <- app_assoc. cbn [flat_map List.length]. rewrite EN. split; [reflexivity|]. split; [lia|reflexivity].
Qed.
Example C72_nonvacuous : (exists m ae, accepts Rnum (from_parameters 1 1 1 None 1)%R two_calls m /\
    (forall a, In a two_calls -> a_override a = None /\ (0 < a_freq a)%R /\ a_type a <> "EdwardsFermionBoson"%string) /\ distinct Rnum (doubled_freqs Rnum two_calls) /\
    (forall a, In a two_calls -> a_type a <> "BondPeierls"%string) /\ good_model m ae /\ same_physics m m /\ room m m ae (Z.of_nat 1 + 3) (Z.of_nat 1)) /\
  (exists m0, thermal_moment m0 1 0 0 2 (RtoC 7) /\ m_temp m0 = 0%R) /\
  (0 < 1)%R /\ cos (2 * (0 * 1)) <> 0%R.
Proof.
  assert (D : distinct Rnum (doubled_freqs Rnum two_calls)).
  { unfold doubled_freqs, two_calls, distinct. cbn [flat_map app call_of a_freq n_opp Rnum]. repeat constructor; cbn; (match goal with |- (if Req_EM_T ?a ?b then _ else _) = _ => destruct (Req_EM_T a b); [lra|reflexivity] end). }
  split; [|split; [|split; [lra|replace (2 * (0 * 1))%R with 0%R by ring; rewrite cos_0; lra]]].
  - assert (F : Forall fine two_calls) by (repeat constructor; try discriminate; try (eexists; split; [reflexivity|lia]); cbn; try lia; auto).
    destruct (fine_accepted two_calls (from_parameters 1 1 1 None 1)%R F) as [m A].
    assert (hot : n_ltb Rnum (n_0 Rnum) 1%R = true) by (cbn; destruct (Rlt_dec 0 1); [reflexivity|lra]).
    pose proof (acc_built R Rnum (proj1 Rnum_ok) 1%nat two_calls _ [] [] m (built_start Rnum 1%nat 1%R 1%R 1%R None) A eq_refl) as Bt. cbn [from_parameters m_temp] in Bt. rewrite hot in Bt.
    destruct (Double_proofs.accepts_pe Rnum (proj1 Rnum_ok) two_calls (from_parameters 1 1 1 None 1)%R m hot A) as [Ep Ea]. destruct (accepts_pn two_calls (from_parameters 1 1 1 None 1)%R m hot A) as [En [Et Em]].
    assert (NB : forall a, In a two_calls -> a_type a <> "BondPeierls"%string) by (intros a [<- |[<- |[]]]; discriminate).
    destruct (HModel_proofs.built_good Rnum (proj1 Rnum_ok) m _ _ Bt) as [ae G]; [discriminate|exact D|intros q E; rewrite Em in E; discriminate|intros q E; rewrite Ea in E; discriminate|right; intros c Hc; apply in_map_iff in Hc as [a [<- Ha]]; apply NB, Ha|].
    assert (Eae : ae = 4). { pose proof (gm_ae _ _ G) as H. unfold absolute_extent in H. rewrite Ea, Ep in H. cbn in H. congruence. } subst ae.
    exists m, 4. split; [exact A|]. split; [|split; [exact D|split; [exact NB|split; [exact G|split; [repeat split|]]]]].
    + intros a [<- |[<- |[]]]; (split; [reflexivity|]; split; [cbn; lra|discriminate]).
    + split; [reflexivity|]. split; [lia|]. rewrite Et, Ep, En. intros t Ht. cbn in Ht. do 4 (destruct t as [|t]; [cbn; lia|]). lia.
  - assert (L2 : (0 < ln 2)%R) by (rewrite <- ln_1; apply ln_increasing; lra).
    assert (B : bose 1 (ln 2) = 1%R). { unfold bose. replace (ln 2 / 1)%R with (ln 2) by field. rewrite exp_ln by lra. field. }
    destruct (fine_accepted [call_of "Holstein" (ln 2) 1 1 1 1 1] (from_parameters 1 1 1 None 1)%R) as [m A]; [constructor; [apply fine_call; try lia; left; reflexivity|constructor]|].
    destruct (C72_calls 1 1 1 [call_of "Holstein" (ln 2) 1 1 1 1 1] m Rlt_0_1) as [m0 [A0 [V [Vt Tf]]]].
    + intros a [<- |[]]. split; [reflexivity|]. split; [exact L2|discriminate].
    + unfold doubled_freqs, distinct. cbn. repeat constructor. destruct (Req_EM_T (- ln 2) (ln 2)); [lra|reflexivity].
    + exact A.
    + exists m0. destruct (Thermocalls_proofs.moments_any m 0 0 (proj2 (tf_mps _ _ _ _ _ Tf))) as [mu Mu]. pose proof (C72_double 1 V Vt m0 m 0 0 mu 2%nat Rlt_0_1 Tf Mu) as Th.
      destruct A as [logs [m1 [E [L Em]]]]. cbn in Em. subst m1. rewrite (C72_holstein 1 1 1 (ln 2) 1 1 1 1 1 logs m 0 mu Rlt_0_1 L2 E L Mu), B in Th. replace (0 * 1)%R with 0%R in Th by ring. rewrite cos_0 in Th.
      replace ((2 * 1 * 1) ^ 2 + 1 ^ 2 * (1 + 2 * 1))%R with 7%R in Th by ring. split; [exact Th|].
      destruct A0 as [logs0 [m1 [E0 [L0 Em]]]]. cbn in Em. subst m1. destruct (one_cold 1 1 _ _ _ _ _ _ _ _ _ E0 L0) as [ts [_ ->]]. reflexivity.
Qed.
