(** The doubled system contains the zero-temperature system (C48). *)
From Coq Require Import String ZArith List Bool Lia Permutation Ring.
From Verif Require Import Base NdArray NdArray_proofs Config Spec Spec_ops Config_proofs
  Model HModel Space Spec_space Render Term Equation System Spec_engine
  Ring Coef Spec_eom Solvers Spec_solve Spec_model HModel_proofs Spec_sym Legal_proofs Hist_proofs.
Import ListNotations.
Open Scope list_scope.
Open Scope Z_scope.

(** * Every second element *)
Fixpoint evens {A} (l : list A) : list A := match l with x :: _ :: r => x :: evens r | _ => [] end.

Lemma evens_app : forall A n (l : list A) a b, List.length l = (2 * n)%nat -> evens (l ++ [a; b]) = evens l ++ [a].
Proof.
  intros A n. induction n as [|n IH]; intros l a b L.
  - destruct l; [reflexivity|discriminate].
  - destruct l as [|x [|y r]]; [discriminate|cbn in L; lia|]. cbn [evens app]. rewrite IH; [reflexivity|]. cbn in L. lia.
Qed.

Lemma evens_nth : forall A n (l : list A) t, List.length l = (2 * n)%nat -> (t < n)%nat -> nth_error (evens l) t = nth_error l (2 * t).
Proof.
  intros A n. induction n as [|n IH]; intros l t L Ht; [lia|].
  destruct l as [|x [|y r]]; [discriminate|cbn in L; lia|]. cbn [evens]. destruct t as [|t]; [reflexivity|].
  replace (2 * S t)%nat with (S (S (2 * t))) by lia. cbn [nth_error]. apply IH; [cbn in L; lia|lia].
Qed.

Lemma evens_In : forall A n (l : list A) x, List.length l = n -> In x (evens l) -> In x l.
Proof.
  intros A n. induction n as [n IH] using lt_wf_ind. intros l x L H.
  destruct l as [|a [|b r]]; [destruct H|destruct H|]. cbn [evens] in H. destruct H as [->|H]; [left; reflexivity|].
  right. right. apply (IH (List.length r)); [cbn in L; lia|reflexivity|exact H].
Qed.

Lemma nth_of_error : forall (l l' : list Z) t t', nth_error l t = nth_error l' t' -> nth t l 0 = nth t' l' 0.
Proof.
  intros l l' t t' H. destruct (nth_error l' t') as [x|] eqn:E.
  - rewrite (nth_error_nth _ _ 0 H), (nth_error_nth _ _ 0 E). reflexivity.
  - apply nth_error_None in H, E. rewrite !nth_overflow by assumption. reflexivity.
Qed.

Section Double.
Context {T : Type} {K : cring}.
Add Ring KRdbl : (klaws K).
Variable N : numops T.
Variable e : env T K.
Hypothesis EO : forall x, ev e (n_opp N x) = kopp (ev e x).
Hypothesis Kn : num_ok N.
Variables temp temp0 : T.
Hypothesis hot : n_ltb N (n_0 N) temp = true.
Hypothesis cold : n_ltb N (n_0 N) temp0 = false.

Definition shifted (h0 h : hterm T) : Prop :=
  ht_psi h = ht_psi h0 /\ ht_phi h = ht_phi h0 /\ ht_dag h = ht_dag h0 /\ ev e (ht_coupling h) = ev e (ht_coupling h0).

Lemma get_terms_shift : forall dim ty g g' i i' f f' ts, ev e g' = ev e g -> get_terms N dim ty g i f = Some ts ->
  exists ts', get_terms N dim ty g' i' f' = Some ts' /\ Forall2 (fun h0 h => shifted h0 h /\ ht_index h0 = i /\ ht_index h = i') ts ts'.
Proof.
  intros dim ty g g' i i' f f' ts H E. assert (H' : ev e (n_opp N g') = ev e (n_opp N g)) by (rewrite !EO, H; reflexivity).
  unfold get_terms in *. destruct (String.eqb ty "Holstein"); [|destruct (String.eqb ty "EdwardsFermionBoson"); [|destruct (String.eqb ty "BondPeierls"); [|destruct (String.eqb ty "Peierls"); [|discriminate]]]];
  (eexists; split; [reflexivity|]);
  match type of E with Some ?l = Some ts => assert (l = ts) as <- by congruence end;
  repeat (apply Forall2_cons; [unfold shifted; cbn [ht_psi ht_phi ht_dag ht_index ht_coupling]; repeat split; assumption|]); apply Forall2_nil.
Qed.

Lemma get_terms_dead : forall dim ty g i f ts, ev e g = k0 -> get_terms N dim ty g i f = Some ts -> Forall (fun h => ev e (ht_coupling h) = k0) ts.
Proof.
  intros dim ty g i f ts H E. assert (H' : ev e (n_opp N g) = k0) by (rewrite EO, H; ring).
  unfold get_terms in *. destruct (String.eqb ty "Holstein"); [|destruct (String.eqb ty "EdwardsFermionBoson"); [|destruct (String.eqb ty "BondPeierls"); [|destruct (String.eqb ty "Peierls"); [|discriminate]]]];
  match type of E with Some ?l = Some ts => assert (l = ts) as <- by congruence end; repeat (apply Forall_cons; [assumption|]); apply Forall_nil.
Qed.

(** Successful calls of [Hamiltonian.add_]. *)
Lemma ham_add_inv : forall h c idx f cs dcs V l h1, ham_add N h c idx f cs dcs V = Ok (l, h1) -> ~ In LError l ->
  exists g ts, ((cs = Some g /\ dcs = None) \/ (cs = None /\ exists lam, dcs = Some lam /\ model_coupling_map N c (h_hop h) f lam = Ok g)) /\
    get_terms N (h_dim h) c (n_mul N g V) (Z.to_nat idx) f = Some ts /\ 0 <= idx /\ l = [LDebug] /\
    h1 = mkHam (h_terms h ++ ts) (if existsb (n_eqb N f) (h_freqs h) then h_freqs h else h_freqs h ++ [f]) (h_dim h) (h_hop h).
Proof.
  intros h c idx f cs dcs V l h1 E L. unfold ham_add in E. cbv zeta in E.
  destruct (match cs with Some g => _ | None => _ end) as [g|x] eqn:Eg.
  - destruct (get_terms N (h_dim h) c (n_mul N g V) (Z.to_nat idx) f) as [ts|] eqn:Et.
    + unfold guard in E. destruct (Z.leb_spec 0 idx) as [I|I]; [|discriminate]. cbn [bind] in E. exists g, ts. split.
      * destruct cs as [g'|], dcs as [lam|]; try discriminate; [left; split; congruence|right; split; [reflexivity|]]. exists lam. auto.
      * split; [exact Et|]. split; [exact I|]. split; congruence.
    + exfalso. apply L. assert (l = [LError; LDebug]) as -> by congruence. left. reflexivity.
  - destruct x; try discriminate. exfalso. apply L. assert (l = [LError; LDebug]) as -> by congruence. left. reflexivity.
Qed.

Record dbl (m0 m : model T) (fs : list T) : Prop := {
  db_temp : m_temp m = temp; db_temp0 : m_temp m0 = temp0; db_mps : m_mps m0 = m_mps m; db_nt : m_ntypes m = (2 * m_ntypes m0)%nat;
  db_dim : h_dim (m_ham m) = h_dim (m_ham m0); db_hop : h_hop (m_ham m) = h_hop (m_ham m0); db_aext : m_aext m = m_aext m0;
  db_pe : evens (m_pe m) = m_pe m0; db_lpe : List.length (m_pe m) = m_ntypes m;
  db_pn : evens (m_pn m) = m_pn m0; db_lpn : List.length (m_pn m) = m_ntypes m;
  db_fs : evens (h_freqs (m_ham m)) = h_freqs (m_ham m0); db_lfs : List.length (h_freqs (m_ham m)) = m_ntypes m;
  db_hfs : h_freqs (m_ham m) = fs;
  db_ops : exists live dead, Permutation (h_terms (m_ham m)) (live ++ dead) /\
    Forall2 (same_op e (fun t => 2 * t)%nat) (h_terms (m_ham m0)) live /\ Forall (fun h => ev e (ht_coupling h) = k0) dead }.

Lemma fresh : forall fs f, (forall x, In x fs -> n_eqb N f x = false) -> existsb (n_eqb N f) fs = false.
Proof. intros fs f H. apply not_true_iff_false. rewrite existsb_exists. intros [x [Hx E]]. rewrite (H x Hx) in E. discriminate. Qed.

Lemma add_dbl : forall m0 m fs a logs m1, dbl m0 m fs -> frozen N e temp a -> a_override a = None ->
  model_add N m a = Ok (logs, m1) -> ~ In LError logs -> distinct N (fs ++ [a_freq a; n_opp N (a_freq a)]) ->
  exists logs0 m01, model_add N m0 a = Ok (logs0, m01) /\ ~ In LError logs0 /\ dbl m01 m1 (fs ++ [a_freq a; n_opp N (a_freq a)]).
Proof.
  intros m0 m fs a logs m1 D Fz Ov E L Df.
  change (fs ++ [a_freq a; n_opp N (a_freq a)]) with (fs ++ [a_freq a] ++ [n_opp N (a_freq a)]) in Df. rewrite app_assoc in Df.
  apply distinct_app in Df. destruct Df as [Df F2]. apply distinct_app in Df. destruct Df as [_ F1].
  destruct (acceptable_dec N m a) as [A|A].
  2:{ rewrite (add_rejects N m a A) in E. exfalso. apply L. assert (logs = [LError]) as -> by congruence. left. reflexivity. }
  assert (A0 : acceptable N m0 a).
  { constructor; try apply A; rewrite (db_temp0 _ _ _ D), cold; discriminate. }
  unfold model_add in *. cbv zeta in *. rewrite (add_passes N m a A) in E. rewrite (add_passes N m0 a A0).
  destruct Fz with (g := n_1 N) as [_ _]. unfold frozen in Fz.
  rewrite (db_temp _ _ _ D) in E. rewrite (db_temp0 _ _ _ D). rewrite hot in E. rewrite cold. rewrite Ov in *.
  destruct (tfd_prefactors N temp (a_freq a)) as [V Vt]. cbn [fst snd] in Fz.
  assert (E0 : tfd_prefactors N temp0 (a_freq a) = (n_1 N, n_0 N)) by (unfold tfd_prefactors; rewrite cold; reflexivity). rewrite E0.
  destruct (ham_add N (m_ham m) (a_type a) (Z.of_nat (m_ntypes m)) (a_freq a) (a_cs a) (a_dcs a) V) as [[l1 h1]|] eqn:E1; [|discriminate]. cbn [bind] in E.
  destruct (ham_add N h1 (a_type a) (Z.of_nat (m_ntypes m) + 1) (n_opp N (a_freq a)) (a_cs a) (a_dcs a) Vt) as [[l2 h2]|] eqn:E2; [|discriminate]. cbn [bind] in E.
  destruct (a_Mtfd a) as [Mt|] eqn:EM; [|discriminate]. destruct (a_Ntfd a) as [Nt|] eqn:EN; [|discriminate]. cbn [m_pe m_pn m_ntypes] in E.
  match type of E with Ok (?x, ?y) = _ => assert (EL : x = logs) by congruence; assert (y = m1) by congruence end. subst m1.
  destruct (ham_add_inv _ _ _ _ _ _ _ _ _ E1) as [g [ts [Gv [Et [_ [-> Eh1]]]]]]; [intros H; apply L; rewrite <- EL; apply in_or_app; right; apply in_or_app; left; exact H|].
  destruct (ham_add_inv _ _ _ _ _ _ _ _ _ E2) as [g2 [ts2 [_ [Et2 [_ [-> Eh2]]]]]]; [intros H; apply L; rewrite <- EL; apply in_or_app; right; apply in_or_app; right; exact H|].
  destruct (get_terms_shift (h_dim (m_ham m)) (a_type a) (n_mul N g V) (n_mul N g (n_1 N)) _ (Z.to_nat (Z.of_nat (m_ntypes m0))) _ (a_freq a) ts
    ltac:(symmetry; apply Fz) Et) as [ts0 [Et0 Ft]].
  assert (H0 : ham_add N (m_ham m0) (a_type a) (Z.of_nat (m_ntypes m0)) (a_freq a) (a_cs a) (a_dcs a) (n_1 N) =
    Ok ([LDebug], mkHam (h_terms (m_ham m0) ++ ts0) (h_freqs (m_ham m0) ++ [a_freq a]) (h_dim (m_ham m0)) (h_hop (m_ham m0)))).
  { unfold ham_add. cbv zeta. rewrite <- (db_hop _ _ _ D).
    replace (match a_cs a with Some g0 => match a_dcs a with Some _ => Err ValueError | None => Ok g0 end
      | None => match a_dcs a with Some lam => model_coupling_map N (a_type a) (h_hop (m_ham m)) (a_freq a) lam | None => Err ValueError end end) with (@Ok T g).
    - rewrite <- (db_dim _ _ _ D), Et0. unfold guard. destruct (Z.leb_spec 0 (Z.of_nat (m_ntypes m0))); [|lia]. cbn [bind].
      rewrite fresh; [reflexivity|]. intros x Hx. apply F1. rewrite <- (db_fs _ _ _ D) in Hx. rewrite <- (db_hfs _ _ _ D). eapply evens_In; [reflexivity|exact Hx].
    - destruct Gv as [[-> ->]|[-> [lam [-> G]]]]; [reflexivity|symmetry; exact G]. }
  rewrite H0. cbn [bind]. eexists. eexists. split; [reflexivity|]. split.
  { rewrite in_app_iff. intros [H|[H|[]]]; [|discriminate]. destruct (n_eqb N temp0 (n_0 N) && _); [destruct H as [H|[]]; discriminate|destruct H]. }
  assert (Fh1 : h_freqs h1 = fs ++ [a_freq a]).
  { rewrite Eh1. cbn [h_freqs]. rewrite (db_hfs _ _ _ D), fresh by exact F1. reflexivity. }
  assert (Fh2 : h_freqs h2 = h_freqs (m_ham m) ++ [a_freq a; n_opp N (a_freq a)]).
  { rewrite Eh2. cbn [h_freqs]. rewrite Fh1, fresh by exact F2. rewrite <- app_assoc, (db_hfs _ _ _ D). reflexivity. }
  pose proof (db_nt _ _ _ D) as NT.
  constructor; cbn [m_temp m_mps m_ntypes m_ham m_aext m_pe m_pn m_lattice h_dim h_hop h_freqs h_terms].
  - exact (eq_refl temp).
  - reflexivity.
  - apply (db_mps _ _ _ D).
  - lia.
  - rewrite Eh2, Eh1. apply (db_dim _ _ _ D).
  - rewrite Eh2, Eh1. apply (db_hop _ _ _ D).
  - apply (db_aext _ _ _ D).
  - rewrite <- app_assoc. cbn [app]. rewrite (evens_app _ (m_ntypes m0)), (db_pe _ _ _ D); [reflexivity|rewrite (db_lpe _ _ _ D); exact NT].
  - rewrite !app_length, (db_lpe _ _ _ D). cbn. lia.
  - rewrite <- app_assoc. cbn [app]. rewrite (evens_app _ (m_ntypes m0)), (db_pn _ _ _ D); [reflexivity|rewrite (db_lpn _ _ _ D); exact NT].
  - rewrite !app_length, (db_lpn _ _ _ D). cbn. lia.
  - rewrite Fh2. rewrite (evens_app _ (m_ntypes m0)), (db_fs _ _ _ D); [reflexivity|rewrite (db_lfs _ _ _ D); exact NT].
  - rewrite Fh2, app_length, (db_lfs _ _ _ D). cbn. lia.
  - rewrite Fh2, (db_hfs _ _ _ D). reflexivity.
  - destruct (db_ops _ _ _ D) as [live [dead [PL [FL FD]]]]. exists (live ++ ts), (dead ++ ts2). split; [|split].
    + rewrite Eh2. cbn [h_terms]. rewrite Eh1. cbn [h_terms]. rewrite PL, <- !app_assoc. apply Permutation_app_head.
      rewrite !app_assoc. apply Permutation_app_tail. apply Permutation_app_comm.
    + apply Forall2_app; [exact FL|]. rewrite !Nat2Z.id in Ft. rewrite NT in Ft. clear -Ft. induction Ft as [|h0 h l0 l [[S1 [S2 [S3 S4]]] [I1 I2]] _ IH]; constructor; [|exact IH].
      unfold same_op. rewrite I1, I2. repeat split; congruence.
    + apply Forall_app. split; [exact FD|]. eapply get_terms_dead; [|exact Et2]. apply Fz.
Qed.

Lemma accepts_dbl : forall l m0 m fs m1, dbl m0 m fs -> (forall a, In a l -> frozen N e temp a /\ a_override a = None) ->
  accepts N m l m1 -> distinct N (fs ++ doubled_freqs N l) -> exists m01, accepts N m0 l m01 /\ dbl m01 m1 (fs ++ doubled_freqs N l).
Proof.
  induction l as [|a l IH]; intros m0 m fs m1 D Fz E Df.
  - cbn in E. subst m1. exists m0. split; [reflexivity|]. unfold doubled_freqs. cbn. rewrite app_nil_r. exact D.
  - destruct E as [logs [m2 [E [L E2]]]].
    assert (X : fs ++ doubled_freqs N (a :: l) = (fs ++ [a_freq a; n_opp N (a_freq a)]) ++ doubled_freqs N l) by (unfold doubled_freqs; cbn [flat_map]; rewrite <- app_assoc; reflexivity).
    rewrite X in Df |- *.
    destruct (add_dbl m0 m fs a logs m2 D) as [logs0 [m02 [E0 [L0 D2]]]]; try assumption; try (apply Fz; left; reflexivity).
    { clear -Df. revert Df. generalize (fs ++ [a_freq a; n_opp N (a_freq a)]) (doubled_freqs N l). unfold distinct.
      induction l0 as [|x r IH]; intros q H; cbn in *; [constructor|]. inversion H as [|? ? H1 H2]; subst. constructor; [apply Forall_app in H1; apply H1|apply (IH q H2)]. }
    destruct (IH m02 m2 _ m1 D2 ltac:(intros; apply Fz; right; assumption) E2 Df) as [m01 [A01 D01]].
    exists m01. split; [|exact D01]. exists logs0, m02. auto.
Qed.

Lemma dbl_part : forall m0 m fs, dbl m0 m fs -> part_of e (fun t => 2 * t)%nat m0 m.
Proof.
  intros m0 m fs D. pose proof (db_nt _ _ _ D) as NT. constructor.
  - intros; lia.
  - intros; lia.
  - apply (db_mps _ _ _ D).
  - intros t Ht. apply nth_of_error. rewrite <- (db_pe _ _ _ D). apply (evens_nth _ (m_ntypes m0)); [rewrite (db_lpe _ _ _ D); exact NT|exact Ht].
  - intros t Ht. apply nth_of_error. rewrite <- (db_pn _ _ _ D). apply (evens_nth _ (m_ntypes m0)); [rewrite (db_lpn _ _ _ D); exact NT|exact Ht].
  - intros t Ht. rewrite <- (db_fs _ _ _ D). apply (evens_nth _ (m_ntypes m0)); [rewrite (db_lfs _ _ _ D); exact NT|exact Ht].
  - apply (db_ops _ _ _ D).
Qed.

Lemma dbl_start : forall hop lat mps dim, dbl (from_parameters hop lat temp0 mps dim) (from_parameters hop lat temp mps dim) [].
Proof. intros. constructor; try reflexivity. exists [], []. repeat split; constructor. Qed.

Lemma doubled_part : forall hop lat mps dim l m, (forall a, In a l -> frozen N e temp a /\ a_override a = None) ->
  distinct N (doubled_freqs N l) -> accepts N (from_parameters hop lat temp mps dim) l m ->
  exists m0, accepts N (from_parameters hop lat temp0 mps dim) l m0 /\ part_of e (fun t => 2 * t)%nat m0 m /\
    evens (m_pe m) = m_pe m0 /\ List.length (m_pe m) = (2 * m_ntypes m0)%nat /\ m_aext m = m_aext m0.
Proof.
  intros hop lat mps dim l m Fz Df A.
  destruct (accepts_dbl l _ _ [] m (dbl_start hop lat mps dim) Fz A Df) as [m0 [A0 D]]. exists m0. split; [exact A0|]. split; [eapply dbl_part; exact D|].
  split; [apply (db_pe _ _ _ D)|]. split; [rewrite (db_lpe _ _ _ D); apply (db_nt _ _ _ D)|apply (db_aext _ _ _ D)].
Qed.
End Double.

Lemma accepts_det : forall {T} (N : numops T) l m m1 m2, accepts N m l m1 -> accepts N m l m2 -> m1 = m2.
Proof.
  intros T N. induction l as [|a l IH]; intros m m1 m2 A B; cbn in A, B; [congruence|].
  destruct A as [lg [x [E [_ A]]]], B as [lg' [x' [E' [_ B]]]]. assert (x = x') by congruence. subst x'. exact (IH x m1 m2 A B).
Qed.

(** * Extents of the doubled system *)
Definition tfd_M {T} (a : add_args T) : Z := match a_Mtfd a with Some x => x | None => 0 end.

Lemma accepts_pe : forall {T} (N : numops T), num_ok N -> forall l m m1, n_ltb N (n_0 N) (m_temp m) = true -> accepts N m l m1 ->
  m_pe m1 = m_pe m ++ flat_map (fun a => [a_M a; tfd_M a]) l /\ m_aext m1 = m_aext m.
Proof.
  intros T N Kn. induction l as [|a l IH]; intros m m1 H A; cbn in A.
  - subst. rewrite app_nil_r. auto.
  - destruct A as [lg [x [E [L A]]]]. destruct (add_outcome_any N Kn m a lg x E L) as [_ [_ [g [_ D]]]]. unfold added in D. cbv zeta in D. rewrite H in D.
    destruct D as [_ [Et [_ [Ea [_ [_ [ts [_ [Mt [Nt [ts' [fs [EM [_ [_ [Ep _]]]]]]]]]]]]]]]].
    destruct (IH x m1) as [I1 I2]; [rewrite Et; exact H|exact A|]. rewrite I1, I2, Ep, Ea, <- app_assoc. unfold tfd_M. cbn [flat_map]. rewrite EM. auto.
Qed.

Lemma accepts_pe_cold : forall {T} (N : numops T), num_ok N -> forall l m m1, n_ltb N (n_0 N) (m_temp m) = false -> accepts N m l m1 ->
  m_pe m1 = m_pe m ++ map a_M l /\ m_aext m1 = m_aext m.
Proof.
  intros T N Kn. induction l as [|a l IH]; intros m m1 H A; cbn in A.
  - subst. rewrite app_nil_r. auto.
  - destruct A as [lg [x [E [L A]]]]. destruct (add_outcome_any N Kn m a lg x E L) as [_ [_ [g [_ D]]]]. unfold added in D. cbv zeta in D. rewrite H in D.
    destruct D as [_ [Et [_ [Ea [_ [_ [ts [_ [Ep _]]]]]]]]].
    destruct (IH x m1) as [I1 I2]; [rewrite Et; exact H|exact A|]. rewrite I1, I2, Ep, Ea, <- app_assoc. cbn [map app]. auto.
Qed.

Lemma lmaxZ_spec : forall l v, lmaxZ l = Some v <-> In v l /\ forall y, In y l -> y <= v.
Proof.
  assert (X : forall l a, In (fold_left Z.max l a) (a :: l) /\ forall y, In y (a :: l) -> y <= fold_left Z.max l a).
  { induction l as [|b l IH]; intros a; cbn [fold_left].
    - split; [left; reflexivity|]. intros y [<-|[]]. lia.
    - destruct (IH (Z.max a b)) as [H1 H2]. split.
      + destruct H1 as [H1|H1]; [|right; right; exact H1]. rewrite <- H1. destruct (Z.max_spec a b) as [[_ E]|[_ E]]; rewrite E; [right; left|left]; reflexivity.
      + intros y Hy. assert (Z.max a b <= fold_left Z.max l (Z.max a b)) by (apply H2; left; reflexivity).
        destruct Hy as [<-|[<-|Hy]]; [lia|lia|]. apply H2. right. exact Hy. }
  intros [|a l] v; cbn [lmaxZ].
  - split; [discriminate|intros [[] _]].
  - destruct (X l a) as [X1 X2]. split; [intros H; injection H as <-; auto|]. intros [H1 H2]. f_equal. apply Z.le_antisymm; [apply H2, X1|apply X2, H1].
Qed.

Lemma fit_extent : forall {T} (N : numops T) (m m0 : model T) (l : list (add_args T)) ae, num_ok N ->
  m_pe m = flat_map (fun a => [a_M a; tfd_M a]) l -> m_pe m0 = map a_M l -> m_aext m = None -> m_aext m0 = None ->
  (forall a, In a l -> exists a', In a' l /\ tfd_M a <= a_M a') -> absolute_extent m = Some ae -> absolute_extent m0 = Some ae.
Proof.
  intros T N m m0 l ae Kn E E0 A A0 F H. unfold absolute_extent in *. rewrite A in H. rewrite A0, E0. rewrite E in H.
  apply lmaxZ_spec in H. destruct H as [H1 H2]. apply lmaxZ_spec.
  assert (B : forall y, In y (map a_M l) -> y <= ae).
  { intros y Hy. apply H2. apply in_map_iff in Hy. destruct Hy as [a [<- Ha]]. apply in_flat_map. exists a. split; [exact Ha|left; reflexivity]. }
  split; [|exact B]. apply in_flat_map in H1. destruct H1 as [a [Ha [<-|[H1|[]]]]]; [apply in_map; exact Ha|].
  destruct (F a Ha) as [a' [Ha' L]]. assert (a_M a' <= ae) by (apply B, in_map; exact Ha'). assert (a_M a' = ae) as <- by lia. apply in_map. exact Ha'.
Qed.

(** With a single physical type, its own extent already bounds the cloud. *)
Lemma single_extent : forall {T} (m0 : model T) ae ae0, good_model m0 ae0 -> m_ntypes m0 = 1%nat -> nth 0 (m_pe m0) 0 <= ae -> nth 0 (m_pe m0) 0 <= ae0 ->
  forall a, space m0 ae a <-> space m0 ae0 a.
Proof.
  intros T m0 ae ae0 G NT L1 L2 a.
  assert (X : forall x y, nth 0 (m_pe m0) 0 <= y -> space m0 x a -> space m0 y a).
  { intros x y Ly [W [[z [Sh Hz]] [Tt Lg]]]. split; [exact W|]. split; [|split; assumption]. exists z. split; [exact Sh|].
    destruct Lg as [[H _]|[Rk [Pos [Ti [_ [Ex _]]]]]]; [discriminate|].
    destruct (Ti 0%nat) as [O1 O2]; [unfold ndim; rewrite Sh; cbn; lia|]. rewrite Sh in O2. cbn [nth] in O2.
    destruct O1 as [t1 [x1 [Lx1 [N1 P1]]]], O2 as [t2 [x2 [Lx2 [N2 P2]]]].
    assert (T0 : forall t q, 0 < occ a t q -> t = 0%nat).
    { intros t q H. pose proof (Modify_proofs.inb_cons_occ a t q ltac:(lia)) as I. rewrite Sh, NT in I. cbn [inb] in I. lia. }
    rewrite (T0 _ _ P1) in P1. rewrite (T0 _ _ P2) in P2.
    destruct (Ex _ eq_refl 0%nat) as [_ Y]; [unfold ntypes; rewrite Sh, NT; cbn; lia|].
    specialize (Y x2 x1 ltac:(lia) ltac:(lia)). unfold ndim in Lx1, Lx2. rewrite Sh in Lx1, Lx2.
    destruct x1 as [|p1 [|]]; try discriminate. destruct x2 as [|p2 [|]]; try discriminate. cbn [hd nth] in *. lia. }
  split; apply X; assumption.
Qed.
