(** Property theorems C42, C47, C48: symmetries of the Green's function.
    [greens e sp ord m] (Spec_sym.v) is what SparseSolver computes for model
    [m]; [regular_at e ord m]: its linear system is nonsingular.  By
    C23_dense_is_sparse the same holds for DenseSolver. *)
From Coq Require Import String ZArith List Bool Lia Permutation Reals Lra.
From Coq Require Import QArith.Qcanon.
From Verif Require Import Base NdArray Config Spec Model HModel Space Spec_space Term Equation System Spec_engine Props_Engine
  Ring Coef Spec_eom Solvers Spec_solve LinSolve Spec_model Spec_sym Cplx Physics Props_Physics Props_Model Props_Solve.
From Verif Require Sysok_proofs Sparse_proofs Sym_proofs Mirror_proofs Embed_proofs Hist_proofs Double_proofs Engine_proofs Physics_proofs.
Import ListNotations.
Open Scope list_scope.
Open Scope Z_scope.

Section Tools.
Context {T : Type} {K : cring}.

Lemma scaffold_shape : forall (e : env T K) m ae ord s X v, good_model m ae -> (forall k l, Permutation (ord k l) l) -> prime_system ord m = Ok s ->
  scaffold e (full_basis s) s = Ok (X, v) -> c_rows X = c_cols X /\ c_rows v = c_rows X.
Proof.
  intros e m ae ord s X v G P E ES. destruct (C22_matrix T K e m ae ord s G P E) as [tr [ES' _]]. rewrite ES in ES'.
  match type of ES' with Ok (X, v) = Ok (?a, ?b) => assert (X = a) as -> by congruence; assert (v = b) as -> by congruence end. auto.
Qed.

Lemma primes : forall (e : env T K) m ae ord, good_model m ae -> (forall k l, Permutation (ord k l) l) ->
  exists s X v, prime_system ord m = Ok s /\ scaffold e (full_basis s) s = Ok (X, v).
Proof.
  intros e m ae ord G P. destruct (C18_closure T m ae ord G P) as [s [E _]]. destruct (C22_matrix T K e m ae ord s G P E) as [tr [ES _]].
  exists s. do 2 eexists. split; [exact E|exact ES].
Qed.

Lemma greens_ok : forall (e : env T K) m ae ord s sp X v, good_model m ae -> (forall k l, Permutation (ord k l) l) -> prime_system ord m = Ok s ->
  scaffold e (full_basis s) s = Ok (X, v) -> solves X v (sp X v) -> exists g, sparse_solve e sp s = Ok g.
Proof. intros e m ae ord s sp X v G P E ES SV. destruct (C22_sparse_result T K e m ae ord s sp X v G P E ES SV) as [g [Eg _]]. exists g. exact Eg. Qed.
End Tools.

(** C42.  [flipped e f m m']: the models differ only in the signs of the
    couplings of the types [t] with [f t = true]. *)
Theorem C42_sign : forall T (K : cring) (e : env T K) f m m' ae ord ord' sp, good_model m ae -> flipped e f m m' ->
  (forall k l, Permutation (ord k l) l) -> (forall k l, Permutation (ord' k l) l) -> spsolve_ok sp ->
  regular_at e ord m -> regular_at e ord' m' /\ exists g, greens e sp ord m = Ok g /\ greens e sp ord' m' = Ok g.
Proof.
  intros T K e f m m' ae ord ord' sp G Fl P P' SO [s [X [v [E [ES NS]]]]].
  pose proof (Sym_proofs.flip_good m m' ae e f G Fl) as G'. destruct (primes e m' ae ord' G' P') as [s' [X' [v' [E' ES']]]].
  destruct (Sym_proofs.flip_result m m' ae ord ord' s s' e f sp X v X' v' G Fl P P' E E' ES ES' NS) as [NS' R].
  split; [exists s', X', v'; auto|].
  destruct (scaffold_shape e m ae ord s X v G P E ES) as [S1 S2]. destruct (scaffold_shape e m' ae ord' s' X' v' G' P' E' ES') as [S1' S2'].
  assert (SV : solves X v (sp X v)) by (apply SO; assumption). assert (SV' : solves X' v' (sp X' v')) by (apply SO; assumption).
  destruct (greens_ok e m ae ord s sp X v G P E ES SV) as [g Eg]. exists g. unfold greens. rewrite E, E'. cbn [bind].
  rewrite (R SV SV'). auto.
Qed.
Print Assumptions C42_sign.

(** Repeating all [add_] calls with opposite coupling strengths. *)
Theorem C42_calls : forall T (K : cring) (N : numops T) (e : env T K),
  (forall x, ev e (n_opp N x) = kopp (ev e x)) -> (forall x y, n_mul N (n_opp N x) y = n_opp N (n_mul N x y)) ->
  forall hop lat temp mps dim l m, (forall a, In a l -> a_cs a <> None) -> adds N (from_parameters hop lat temp mps dim) l = Ok m ->
  exists m', adds N (from_parameters hop lat temp mps dim) (map (negated N) l) = Ok m' /\ flipped e (fun _ => true) m m' /\
    m_lattice m' = m_lattice m /\ h_hop (m_ham m') = h_hop (m_ham m).
Proof.
  intros T K N e EO MO hop lat temp mps dim l m C E.
  destruct (Hist_proofs.adds_neg N e EO MO l _ _ m (Hist_proofs.neg_start e hop lat temp mps dim) C E) as [m' [E' R]].
  exists m'. split; [exact E'|]. split; [apply Hist_proofs.neg_flipped; exact R|]. destruct R as [R1 _ _ _ _ _ _ [_ [_ [R3 _]]]]. auto.
Qed.
Print Assumptions C42_calls.

(** On the real numbers, at every point (k, w, eta). *)
Theorem C42_physical : forall hop lat temp mps l m ae ord ord' sp k w eta, (forall a, In a l -> a_cs a <> None) ->
  adds Rnum (from_parameters hop lat temp mps 1) l = Ok m -> good_model m ae ->
  (forall k l, Permutation (ord k l) l) -> (forall k l, Permutation (ord' k l) l) -> spsolve_ok sp ->
  regular_at (phys_env m k w eta) ord m ->
  exists m', adds Rnum (from_parameters hop lat temp mps 1) (map (negated Rnum) l) = Ok m' /\
    regular_at (phys_env m' k w eta) ord' m' /\
    exists g, greens (phys_env m k w eta) sp ord m = Ok g /\ greens (phys_env m' k w eta) sp ord' m' = Ok g.
Proof.
  intros hop lat temp mps l m ae ord ord' sp k w eta C E G P P' SO R.
  destruct (C42_calls _ CR Rnum (phys_env m k w eta)) with (hop := hop) (lat := lat) (temp := temp) (mps := mps) (dim := 1%nat) (l := l) (m := m) as [m' [E' [Fl [L H]]]]; try assumption.
  - intros x. apply Ceq; cbn; unfold Re, Im; cbn; lra.
  - intros x y. cbn. lra.
  - exists m'. split; [exact E'|]. assert (EE : phys_env m' k w eta = phys_env m k w eta) by (unfold phys_env; rewrite L, H; reflexivity). rewrite EE.
    exact (C42_sign _ CR (phys_env m k w eta) (fun _ => true) m m' ae ord ord' sp G Fl P P' SO R).
Qed.
Print Assumptions C42_physical.

(** With all couplings zero the system is nonsingular and the result is the
    free propagator. *)
Theorem C42_free : forall T (K : cring) (e : env T K) m ae ord sp, good_model m ae -> (forall k l, Permutation (ord k l) l) -> spsolve_ok sp ->
  (forall h, In h (h_terms (m_ham m)) -> ev e (ht_coupling h) = k0) ->
  regular_at e ord m /\ greens e sp ord m = Ok (G0 e).
Proof.
  intros T K e m ae ord sp G P SO Z. destruct (primes e m ae ord G P) as [s [X [v [E ES]]]].
  destruct (Hist_proofs.free_result m ae e G Z ord s P E sp X v ES) as [NS R]. split; [exists s, X, v; auto|].
  destruct (scaffold_shape e m ae ord s X v G P E ES) as [S1 S2]. unfold greens. rewrite E. cbn [bind]. apply R. apply SO; assumption.
Qed.
Print Assumptions C42_free.

Theorem C42_free_physical : forall m ae ord sp k w eta, good_model m ae -> (forall k l, Permutation (ord k l) l) -> spsolve_ok sp ->
  (forall h, In h (h_terms (m_ham m)) -> ht_coupling h = 0%R) ->
  greens (phys_env m k w eta) sp ord m = Ok (G0_k_omega k (RtoC w) (m_lattice m) eta (h_hop (m_ham m))).
Proof.
  intros m ae ord sp k w eta G P SO Z. apply (C42_free _ CR (phys_env m k w eta) m ae ord sp G P SO). intros h Hh.
  change (RtoC (ht_coupling h) = Cplx.C0). rewrite (Z h Hh). reflexivity.
Qed.
Print Assumptions C42_free_physical.

(** C47.  [mirror_symmetric e f m]: reflection i -> -i maps the operators to
    each other, up to the signs of the couplings of the types chosen by [f];
    [opposite e e']: [e'] is [e] at the opposite momentum. *)
Theorem C47_mirror : forall T (K : cring) (e e' : env T K) f m ae ord ord' sp, good_model m ae -> opposite e e' -> mirror_symmetric e f m ->
  (forall k l, Permutation (ord k l) l) -> (forall k l, Permutation (ord' k l) l) -> spsolve_ok sp ->
  regular_at e ord m -> regular_at e' ord' m /\ exists g, greens e sp ord m = Ok g /\ greens e' sp ord' m = Ok g.
Proof.
  intros T K e e' f m ae ord ord' sp G O MS P P' SO [s [X [v [E [ES NS]]]]].
  destruct (primes e' m ae ord' G P') as [s' [X' [v' [E' ES']]]].
  destruct (Mirror_proofs.mirror_result m ae ord ord' s s' e e' f sp X v X' v' G O MS P P' E E' ES ES' NS) as [NS' R].
  split; [exists s', X', v'; auto|].
  destruct (scaffold_shape e m ae ord s X v G P E ES) as [S1 S2]. destruct (scaffold_shape e' m ae ord' s' X' v' G P' E' ES') as [S1' S2'].
  assert (SV : solves X v (sp X v)) by (apply SO; assumption). assert (SV' : solves X' v' (sp X' v')) by (apply SO; assumption).
  destruct (greens_ok e m ae ord s sp X v G P E ES SV) as [g Eg]. exists g. unfold greens. rewrite E, E'. cbn [bind].
  rewrite (R SV SV'). auto.
Qed.
Print Assumptions C47_mirror.

(** Every model built from supported couplings, at any temperature, is mirror
    symmetric. *)
Theorem C47_built : forall T (K : cring) (N : numops T) (e : env T K), num_ok N -> (forall x, n_opp N (n_opp N x) = x) ->
  (forall x, ev e (n_opp N x) = kopp (ev e x)) -> forall dim m fs cs, built N dim m fs cs -> exists f, mirror_symmetric e f m.
Proof. intros T K N e Kn OO EO dim m fs cs B. exact (Hist_proofs.built_mirror N e EO Kn OO dim m fs cs B). Qed.
Print Assumptions C47_built.

Lemma Cexpi_add : forall x y, Cexpi (x + y)%R = Cmul (Cexpi x) (Cexpi y).
Proof. intros x y. apply Ceq; unfold Cexpi, Cmul, Re, Im; cbn [fst snd].
  - rewrite cos_plus. reflexivity.
  - rewrite sin_plus. ring. Qed.

Lemma half_opp : forall d, half_of [- d] = (- half_of [d])%R.
Proof. intros d. unfold half_of. cbn [hd]. rewrite opp_IZR. field. Qed.

Theorem C47_opposite : forall m k w eta, opposite (phys_env m k w eta) (phys_env m (- k) w eta).
Proof.
  intros m k w eta. constructor.
  - reflexivity.
  - intros d. cbn [phys_env ph]. rewrite half_opp. f_equal. ring.
  - reflexivity.
  - cbn [phys_env G0]. apply C36_even.
  - intros d l. cbn [phys_env g0]. rewrite half_opp. unfold g0_delta_omega.
    replace (Rabs (- half_of [d] * m_lattice m)) with (Rabs (half_of [d] * m_lattice m)) by (rewrite <- Ropp_mult_distr_l, Rabs_Ropp; reflexivity).
    destruct (Req_EM_T (- half_of [d]) 0) as [H|H], (Req_EM_T (half_of [d]) 0) as [H'|H']; try reflexivity; exfalso; lra.
  - cbn [phys_env ph]. unfold half_of. cbn [hd]. replace (k * (m_lattice m * (IZR 0 / 2)))%R with 0%R by (cbn; field). unfold Cexpi. rewrite cos_0, sin_0. reflexivity.
  - intros d d'. cbn [phys_env ph]. change (kmul (c := CR)) with Cmul. rewrite <- Cexpi_add. f_equal. unfold half_of. cbn [hd]. rewrite plus_IZR. field.
Qed.
Print Assumptions C47_opposite.

Theorem C47_physical : forall m fs cs ae ord ord' sp k w eta, built Rnum 1 m fs cs -> good_model m ae ->
  (forall k l, Permutation (ord k l) l) -> (forall k l, Permutation (ord' k l) l) -> spsolve_ok sp ->
  regular_at (phys_env m k w eta) ord m ->
  regular_at (phys_env m (- k) w eta) ord' m /\
  exists g, greens (phys_env m k w eta) sp ord m = Ok g /\ greens (phys_env m (- k) w eta) sp ord' m = Ok g.
Proof.
  intros m fs cs ae ord ord' sp k w eta B G P P' SO R.
  destruct (C47_built _ CR Rnum (phys_env m k w eta) (proj1 Rnum_ok) (proj2 Rnum_ok)) with (dim := 1%nat) (m := m) (fs := fs) (cs := cs) as [f MS]; [|exact B|].
  - intros x. apply Ceq; cbn; unfold Re, Im; cbn; lra.
  - exact (C47_mirror _ CR (phys_env m k w eta) (phys_env m (- k) w eta) f m ae ord ord' sp G (C47_opposite m k w eta) MS P P' SO R).
Qed.
Print Assumptions C47_physical.

(** C48.  [part_of e w m0 m]: [m] has the types of [m0], at positions [w], and
    others whose couplings vanish. *)
Theorem C48_part : forall T (K : cring) (e : env T K) w m0 m ae ae0 ord ord0 sp, good_model m ae -> good_model m0 ae0 ->
  part_of e w m0 m -> additive e -> (forall a, space m0 ae a <-> space m0 ae0 a) ->
  (forall k l, Permutation (ord k l) l) -> (forall k l, Permutation (ord0 k l) l) -> spsolve_ok sp ->
  regular_at e ord m -> regular_at e ord0 m0 -> exists g, greens e sp ord m = Ok g /\ greens e sp ord0 m0 = Ok g.
Proof.
  intros T K e w m0 m ae ae0 ord ord0 sp G G0' PO AD AE P P0 SO [s [X [v [E [ES NS]]]]] [s0 [X0 [v0 [E0 [ES0 NS0]]]]].
  destruct (scaffold_shape e m ae ord s X v G P E ES) as [S1 S2]. destruct (scaffold_shape e m0 ae0 ord0 s0 X0 v0 G0' P0 E0 ES0) as [S1' S2'].
  assert (SV : solves X v (sp X v)) by (apply SO; assumption). assert (SV0 : solves X0 v0 (sp X0 v0)) by (apply SO; assumption).
  destruct (greens_ok e m ae ord s sp X v G P E ES SV) as [g Eg]. exists g. unfold greens. rewrite E, E0. cbn [bind].
  rewrite <- (Embed_proofs.part_result m m0 ae ae0 ord ord0 s s0 e w sp X v X0 v0 G G0' PO AD AE P P0 E E0 ES ES0 SV NS0 SV0). auto.
Qed.
Print Assumptions C48_part.

(** The same calls at temperature [temp] > 0 and [temp0] = 0: if the fictitious
    couplings vanish ([frozen]) the results agree, provided the fictitious
    extents do not exceed the largest physical one, or there is only one
    physical type. *)
Theorem C48_calls : forall T (K : cring) (N : numops T) (e : env T K), num_ok N -> (forall x, ev e (n_opp N x) = kopp (ev e x)) -> additive e ->
  forall temp temp0 hop lat mps l m m0 ae ae0 ord ord0 sp,
  n_ltb N (n_0 N) temp = true -> n_ltb N (n_0 N) temp0 = false ->
  (forall a, In a l -> frozen N e temp a /\ a_override a = None) -> distinct N (doubled_freqs N l) ->
  accepts N (from_parameters hop lat temp mps 1) l m -> accepts N (from_parameters hop lat temp0 mps 1) l m0 ->
  good_model m ae -> good_model m0 ae0 ->
  (List.length l = 1%nat \/ forall a M, In a l -> a_Mtfd a = Some M -> exists a', In a' l /\ M <= a_M a') ->
  (forall k l, Permutation (ord k l) l) -> (forall k l, Permutation (ord0 k l) l) -> spsolve_ok sp ->
  regular_at e ord m -> regular_at e ord0 m0 -> exists g, greens e sp ord m = Ok g /\ greens e sp ord0 m0 = Ok g.
Proof.
  intros T K N e Kn EO AD temp temp0 hop lat mps l m m0 ae ae0 ord ord0 sp Ht Hc Fz Df A A0 G G0' Ex P P0 SO R R0.
  destruct (Double_proofs.doubled_part N e EO temp temp0 Ht Hc hop lat mps 1 l m Fz Df A) as [m0' [A0' [PO _]]].
  assert (m0' = m0) as -> by exact (Double_proofs.accepts_det N l _ _ _ A0' A0).
  destruct (Double_proofs.accepts_pe N Kn l (from_parameters hop lat temp mps 1) m Ht A) as [Ep Ea]. destruct (Double_proofs.accepts_pe_cold N Kn l (from_parameters hop lat temp0 mps 1) m0 Hc A0) as [Ep0 Ea0].
  cbn [from_parameters m_pe m_aext app] in Ep, Ea, Ep0, Ea0.
  eapply C48_part; try eassumption. destruct Ex as [Ex|Ex].
  - destruct l as [|a [|]]; try discriminate. cbn [flat_map map app] in Ep, Ep0. pose proof (gm_wf _ _ G0') as [_ [W _]]. rewrite Ep0 in W. cbn in W.
    pose proof (gm_ae _ _ G) as H. pose proof (gm_ae _ _ G0') as H0. unfold absolute_extent in H, H0. rewrite Ea, Ep in H. rewrite Ea0, Ep0 in H0. cbn in H, H0.
    apply (Double_proofs.single_extent m0 ae ae0 G0'); [auto|rewrite Ep0; cbn; injection H as <-; lia|rewrite Ep0; cbn; injection H0 as <-; lia].
  - assert (E : absolute_extent m0 = Some ae).
    { apply (Double_proofs.fit_extent N m m0 l ae Kn Ep Ep0 Ea Ea0); [|apply (gm_ae _ _ G)]. intros a Ha. unfold Double_proofs.tfd_M.
      destruct (a_Mtfd a) as [M|] eqn:EM; [apply (Ex a M Ha EM)|]. exists a. split; [exact Ha|].
      assert (In (a_M a) (m_pe m0)) as I by (rewrite Ep0; apply in_map; exact Ha). apply (In_nth _ _ 0) in I. destruct I as [t [Lt <-]].
      pose proof (gm_wf _ _ G0') as [_ [W _]]. rewrite W in Lt. pose proof (gm_pe _ _ G0' t Lt). lia. }
    rewrite (gm_ae _ _ G0') in E. injection E as ->. intros a. reflexivity.
Qed.
Print Assumptions C48_calls.

(** The physical environment meets [additive]. *)
Theorem C48_additive : forall m k w eta, additive (phys_env m k w eta).
Proof.
  intros m k w eta d l l' P. cbn [phys_env g0].
  assert (X : forall q, shift_of q = shift_of (present q)).
  { induction q as [|[x n] q IH]; [reflexivity|]. unfold present in *. cbn [filter snd]. destruct (Z.eqb_spec n 0) as [->|H]; cbn [negb].
    - cbn [shift_of fold_right fst snd]. change (fold_right (fun (p : R * Z) s => (fst p * IZR (snd p) + s)%R) 0%R q) with (shift_of q). rewrite IH. ring.
    - cbn [shift_of fold_right fst snd]. change (fold_right (fun (p : R * Z) s => (fst p * IZR (snd p) + s)%R) 0%R q) with (shift_of q). rewrite IH. reflexivity. }
  assert (Y : forall p p', Permutation p p' -> shift_of p = shift_of p').
  { intros p p' H. induction H as [|x p p' _ IH|x y p|p p' p'' _ IH1 _ IH2]; cbn [shift_of fold_right] in *.
    - reflexivity.
    - unfold shift_of in IH. rewrite IH. reflexivity.
    - ring.
    - congruence. }
  rewrite (X l), (X l'), (Y _ _ P). reflexivity.
Qed.
Print Assumptions C48_additive.

(** * Witnesses *)
Definition acc {T} (N : numops T) : model T -> list (add_args T) -> result (model T) :=
  fix go m l := match l with
  | [] => Ok m
  | a :: r => match model_add N m a with Ok (logs, m') => if no_error logs then go m' r else Err RuntimeError | Err x => Err x end
  end.
Lemma acc_ok : forall T (N : numops T) l m m', acc N m l = Ok m' -> accepts N m l m'.
Proof.
  intros T N. induction l as [|a l IH]; intros m m' H; cbn in H |- *; [congruence|].
  destruct (model_add N m a) as [[logs m1]|] eqn:E; [|discriminate]. destruct (no_error logs) eqn:L; [|discriminate].
  exists logs, m1. split; [reflexivity|]. split; [|apply IH; exact H]. intros I. unfold no_error in L. rewrite forallb_forall in L. specialize (L _ I). discriminate.
Qed.
Lemma acc_adds : forall T (N : numops T) l m m', acc N m l = Ok m' -> adds N m l = Ok m'.
Proof.
  intros T N. induction l as [|a l IH]; intros m m' H; cbn in H |- *; [exact H|].
  destruct (model_add N m a) as [[logs m1]|]; [|discriminate]. destruct (no_error logs); [|discriminate]. cbn. apply IH. exact H.
Qed.
Lemma acc_built : forall T (N : numops T), num_ok N -> forall dim l m fs cs m', built N dim m fs cs -> accepts N m l m' -> forallb (fun a => is_none (a_override a)) l = true ->
  built N dim m' (fs ++ flat_map (fun a => if n_ltb N (n_0 N) (m_temp m) then [a_freq a; n_opp N (a_freq a)] else [a_freq a]) l) (cs ++ map a_type l).
Proof.
  intros T N Kn dim. induction l as [|a l IH]; intros m fs cs m' B A O; cbn in A.
  - subst. cbn. rewrite !app_nil_r. exact B.
  - destruct A as [logs [m1 [E [L A]]]]. cbn [forallb] in O. apply andb_true_iff in O. destruct O as [O1 O2].
    assert (O3 : a_override a = None) by (destruct (a_override a); [discriminate|reflexivity]).
    pose proof (IH m1 _ _ m' (built_add N dim m fs cs a logs m1 B E L O3) A O2) as X. rewrite (add_temp T N Kn m a logs m1 E L) in X.
    cbn [flat_map map]. rewrite <- !app_assoc in X. exact X.
Qed.

(** A model computed by accepted calls is good. *)
Lemma acc_good : forall (N : numops Z), num_ok N -> forall temp l ae, l <> [] ->
  is_ok (acc N (from_parameters 1 1 temp None 1) l) && forallb (fun a => is_none (a_override a)) l &&
  forallb (fun a => negb (String.eqb (a_type a) "BondPeierls")) l = true ->
  absolute_extent (the (acc N (from_parameters 1 1 temp None 1) l)) = Some ae ->
  distinct N (flat_map (fun a => if n_ltb N (n_0 N) temp then [a_freq a; n_opp N (a_freq a)] else [a_freq a]) l) ->
  good_model (the (acc N (from_parameters 1 1 temp None 1) l)) ae /\
  accepts N (from_parameters 1 1 temp None 1) l (the (acc N (from_parameters 1 1 temp None 1) l)) /\
  built N 1 (the (acc N (from_parameters 1 1 temp None 1) l)) (flat_map (fun a => if n_ltb N (n_0 N) temp then [a_freq a; n_opp N (a_freq a)] else [a_freq a]) l) (map a_type l).
Proof.
  intros N Kn temp l ae L H Ha D. rewrite !andb_true_iff in H. destruct H as [[H1 H2] H3].
  destruct (acc N (from_parameters 1 1 temp None 1) l) as [m|] eqn:E; [|discriminate]. cbn [the] in *. pose proof (acc_ok _ _ _ _ _ E) as A.
  pose proof (acc_built Z N Kn 1 l _ [] [] m (built_start N 1 1 1 temp None) A H2) as B. cbn [app from_parameters m_temp] in B. split; [|split; [exact A|exact B]].
  assert (MP : m_mps m = None /\ m_aext m = None).
  { clear - A Kn. assert (X : forall l m m', accepts N m l m' -> m_mps m' = m_mps m /\ m_aext m' = m_aext m).
    { induction l0 as [|a r IH]; intros q q' A'; cbn in A'; [subst; auto|]. destruct A' as [logs [m1 [E [L A']]]]. destruct (IH _ _ A') as [-> ->].
      destruct (HModel_proofs.add_outcome_any N Kn q a logs m1 E L) as [_ [_ [g [_ D]]]]. split; apply D. }
    apply (X l _ m A). }
  destruct MP as [M1 M2].
  destruct (HModel_proofs.built_good N Kn m _ _ B) as [ae' G].
  - destruct l; [congruence|discriminate].
  - exact D.
  - rewrite M1. discriminate.
  - rewrite M2. discriminate.
  - right. intros c Hc. apply in_map_iff in Hc. destruct Hc as [a [<- Hc]]. rewrite forallb_forall in H3. apply H3 in Hc. destruct (String.eqb_spec (a_type a) "BondPeierls"); [discriminate|assumption].
  - rewrite (gm_ae _ _ G) in Ha. injection Ha as ->. exact G.
Qed.

(** The value of the Green's function from a solution found in any way. *)
Lemma greens_value : forall (e : env Z Qcf) m ae ord s X v x g sp, good_model m ae -> (forall k l, Permutation (ord k l) l) -> prime_system ord m = Ok s ->
  scaffold e (full_basis s) s = Ok (X, v) -> nonsingular X -> solves X v (x X v) -> sparse_solve e x s = Ok g -> spsolve_ok sp -> greens e sp ord m = Ok g.
Proof.
  intros e m ae ord s X v x g sp G P E ES NS SV Eg SO. destruct (scaffold_shape e m ae ord s X v G P E ES) as [S1 S2].
  unfold greens. rewrite E. cbn [bind].
  destruct (C22_sparse_result Z Qcf e m ae ord s x X v G P E ES SV) as [g1 [Eg1 [[u [Pu [Su Gu]]] _]]].
  destruct (C22_sparse_result Z Qcf e m ae ord s sp X v G P E ES (SO X v S1 S2 NS)) as [g2 [Eg2 [_ U2]]].
  destruct (Sysok_proofs.sys_ok_good m ae ord s G P E) as [O _]. rewrite Eg2. f_equal. assert (g1 = g) as <- by congruence.
  exact (Sparse_proofs.g_value_unique s O u g2 g1 (U2 NS u Pu Su) Gu).
Qed.

(** Elimination on lists of rows; only its outcome is checked. *)
Definition aug_row (X : coo Qcf) (i : nat) : list Qcf :=
  let r := filter (fun p => Nat.eqb (fst (fst p)) i) (c_ent X) in
  map (entry r i) (seq 0 (c_cols X)) ++ map (fun j => if Nat.eqb i j then q 1 1 else q 0 1) (seq 0 (c_cols X)).
Definition scale (c : Qcf) (r : list Qcf) : list Qcf := map (fun x => if qb x (q 0 1) then x else kmul c x) r.
Fixpoint axpy (c : Qcf) (r s : list Qcf) : list Qcf :=
  match r, s with x :: r, y :: s => (if qb y (q 0 1) then x else ksub x (kmul c y)) :: axpy c r s | _, _ => [] end.
Fixpoint jordan (n : nat) (done todo : list (list Qcf)) : list (list Qcf) :=
  match n, todo with
  | S n, p :: r =>
    let p' := tl (scale (kinv (c := Qcf) (hd (q 0 1) p)) p) in
    let el row := let x := hd (q 0 1) row in if qb x (q 0 1) then tl row else axpy x (tl row) p' in
    jordan n (map el done ++ [p']) (map el r)
  | _, _ => done
  end.
Definition finv (X : coo Qcf) : list (list Qcf) := jordan (c_rows X) [] (map (aug_row X) (seq 0 (c_rows X))).
Definition fsol (I : list (list Qcf)) (X v : coo Qcf) : nat -> Qcf :=
  let r := map (fun i => let row := nth i I [] in ksum (map (fun p => kmul (nth (fst (fst p)) row (q 0 1)) (snd p)) (c_ent v))) (seq 0 (c_rows X)) in
  fun i => nth i r (q 0 1).
Definition fast (e : env Z Qcf) (m : model Z) (f : Qcf -> bool) : bool :=
  match prime_system id_ord m with
  | Ok s => match scaffold e (full_basis s) s with
            | Ok (X, v) => let I := finv X in check_left qb X (fun i => let row := nth i I [] in fun j => nth j row (q 0 1)) && check_solves qb X v (fsol I X v) &&
                           match sparse_solve e (fun _ _ => fsol I X v) s with Ok g => f g | Err _ => false end
            | Err _ => false end
  | Err _ => false
  end.
Lemma fast_ok : forall e m ae f, good_model m ae -> fast e m f = true ->
  regular_at e id_ord m /\ exists g, f g = true /\ forall sp, spsolve_ok sp -> greens e sp id_ord m = Ok g.
Proof.
  intros e m ae f G H. unfold fast in H. destruct (prime_system id_ord m) as [s|] eqn:E; [|discriminate].
  destruct (scaffold e (full_basis s) s) as [[X v]|] eqn:ES; [|discriminate]. cbv zeta in H. rewrite !andb_true_iff in H. destruct H as [[H1 H2] H3].
  pose proof (check_left_ok qb qb_ok X _ H1) as NS. pose proof (check_solves_ok qb qb_ok X v _ H2) as SV.
  split; [exists s, X, v; auto|]. destruct (sparse_solve e _ s) as [g|] eqn:Eg; [|discriminate]. exists g. split; [exact H3|]. intros sp SO.
  exact (greens_value e m ae id_ord s X v (fun _ _ => fsol (finv X) X v) g sp G id_perm E ES NS SV Eg SO).
Qed.
Lemma fast_value : forall e m ae g, good_model m ae -> fast e m (fun x => qb x g) = true ->
  regular_at e id_ord m /\ forall sp, spsolve_ok sp -> greens e sp id_ord m = Ok g.
Proof.
  intros e m ae g G H. destruct (fast_ok e m ae _ G H) as [R [g' [E1 E2]]]. apply qb_ok in E1. subst g'. split; [exact R|exact E2].
Qed.

Lemma q_opp : forall z, q (- z) 1 = kopp (q z 1).
Proof.
  intros z. apply Qc_is_canon.
  change (QArith_base.Qeq (Qreduction.Qred (QArith_base.Qmake (- z) 1)) (Qreduction.Qred (QArith_base.Qopp (Qreduction.Qred (QArith_base.Qmake z 1))))).
  rewrite !Qreduction.Qred_correct. reflexivity.
Qed.

(** Energies and numbers of phonons *)
Definition absn (l : list (Z * Z)) : Z := fold_right (fun p s => Z.abs (snd p) + s) 0 l.
Definition en (l : list (Z * Z)) : Z := fold_right (fun p s => fst p * snd p + s) 0 l.
(** A rational environment with phases 2^d and propagators that decay; beyond
    two phonons they are cut off. *)
Definition d_env (sgn : Z) : env Z Qcf :=
  mkEnv (K := Qcf) (fun z => q z 1) (fun v => Q2Qc (QArith_base.Qpower (QArith_base.Qmake 2 1) (sgn * hd 0 v)))
    (fun v l => if (absn l <=? 2) && (Z.abs (hd 0 v) <=? 2) then q 1 (Z.to_pos (20 + Z.abs (hd 0 v) + en l)) else q 0 1) (q 1 1).

Lemma d_opposite : opposite (d_env 1) (d_env (-1)).
Proof.
  constructor; cbn [d_env ev ph g0 G0 hd]; try reflexivity.
  - intros d. do 2 f_equal. lia.
  - intros d l. rewrite Z.abs_opp. reflexivity.
  - intros d d'. apply Qc_is_canon.
    change (QArith_base.Qeq (this (Q2Qc (QArith_base.Qpower (QArith_base.Qmake 2 1) (1 * (d + d')))))
      (this (Qcmult (Q2Qc (QArith_base.Qpower (QArith_base.Qmake 2 1) (1 * d))) (Q2Qc (QArith_base.Qpower (QArith_base.Qmake 2 1) (1 * d')))))).
    cbn [Qcmult this Q2Qc]. rewrite !Qreduction.Qred_correct. rewrite !Z.mul_1_l. apply Qpower.Qpower_plus. intros H. discriminate H.
Qed.

Lemma d_additive : forall s, additive (d_env s).
Proof.
  intros s d l l' P. cbn [d_env g0].
  assert (X : forall q, absn q = absn (present q) /\ en q = en (present q)).
  { induction q as [|[x n] r [I1 I2]]; [split; reflexivity|]. unfold present, absn, en in *. cbn [filter snd fold_right fst] in *.
    destruct (Z.eqb_spec n 0) as [->|H]; cbn [negb]; [split; lia|]. cbn [fold_right fst snd]. split; lia. }
  assert (Y : forall p p', Permutation p p' -> absn p = absn p' /\ en p = en p').
  { intros p p' H. unfold absn, en. induction H as [|x p p' _ [I1 I2]|x y p|p p' p'' _ [I1 I2] _ [I3 I4]]; cbn [fold_right]; split; lia. }
  destruct (X l) as [-> ->], (X l') as [-> ->], (Y _ _ P) as [-> ->]. reflexivity.
Qed.

Definition tcall (c : string) (f g M Nn : Z) (Mt Nt : option Z) : add_args Z := mkAdd c f M Nn Mt Nt (Some g) None None.
Definition made (N : numops Z) (temp : Z) (l : list (add_args Z)) : model Z := the (acc N (from_parameters 1 1 temp None 1) l).
Lemma made_adds : forall N temp l, is_ok (acc N (from_parameters 1 1 temp None 1) l) = true -> adds N (from_parameters 1 1 temp None 1) l = Ok (made N temp l).
Proof. intros N temp l H. unfold made. destruct (acc N (from_parameters 1 1 temp None 1) l) as [m|] eqn:E; [|discriminate]. apply acc_adds. exact E. Qed.
Ltac made_good N K temp l ae := apply (acc_good N K temp l ae); [discriminate|vm_compute; reflexivity|vm_compute; reflexivity|vm_compute; repeat constructor].

(** Holstein and Peierls together, ten unknowns; the value is not G0 = 1. *)
Definition two : list (add_args Z) := [tcall "Holstein" 3 2 1 1 None None; tcall "Peierls" 5 3 1 1 None None].
Definition two_value : Qcf := q 324643600 1686043883.
Example C42_nonvacuous : let e := d_env 1 in let m := made Znum 0 two in
  (forall x, ev e (n_opp Znum x) = kopp (ev e x)) /\ (forall x y, n_mul Znum (n_opp Znum x) y = n_opp Znum (n_mul Znum x y)) /\
  adds Znum cold two = Ok m /\ good_model m 1 /\ regular_at e id_ord m /\
  (forall sp, spsolve_ok sp -> greens e sp id_ord m = Ok two_value) /\ two_value <> G0 e /\
  exists m', adds Znum cold (map (negated Znum) two) = Ok m' /\ flipped e (fun _ => true) m m' /\
    map ht_coupling (h_terms (m_ham m)) = [-2; -2; 3; 3; -3; -3; 3; 3; -3; -3] /\ map ht_coupling (h_terms (m_ham m')) = [2; 2; -3; -3; 3; 3; -3; -3; 3; 3].
Proof.
  intros e m. assert (EO : forall x, ev e (n_opp Znum x) = kopp (ev e x)) by (intros x; exact (q_opp x)).
  assert (MO : forall x y, n_mul Znum (n_opp Znum x) y = n_opp Znum (n_mul Znum x y)) by (intros x y; cbn; lia).
  assert (A : adds Znum cold two = Ok m) by (apply (made_adds Znum 0 two); vm_compute; reflexivity).
  split; [exact EO|]. split; [exact MO|]. split; [exact A|].
  assert (G : good_model m 1) by (made_good Znum Znum_ok 0 two 1). split; [exact G|].
  destruct (fast_value e m 1 two_value G) as [R V]; [vm_compute; reflexivity|]. split; [exact R|]. split; [exact V|]. split; [intros H; discriminate H|].
  destruct (C42_calls Z Qcf Znum e EO MO 1 1 0 None 1 two m) as [m' [E' [Fl _]]]; [|exact A|].
  - intros a [<-|[<-|[]]]; discriminate.
  - exists m'. split; [exact E'|]. split; [exact Fl|]. split; [vm_compute; reflexivity|].
    rewrite (made_adds Znum 0 (map (negated Znum) two)) in E' by (vm_compute; reflexivity). assert (m' = made Znum 0 (map (negated Znum) two)) as -> by congruence.
    vm_compute. reflexivity.
Qed.

(** All couplings zero, with two types and four unknowns. *)
Definition none : list (add_args Z) := [tcall "Holstein" 3 0 1 1 None None; tcall "Peierls" 5 0 1 1 None None].
Example C42_free_nonvacuous : let e := d_env 1 in let m := made Znum 0 none in
  good_model m 1 /\ (forall h, In h (h_terms (m_ham m)) -> ev e (ht_coupling h) = k0) /\ List.length (h_terms (m_ham m)) = 10%nat.
Proof.
  intros e m. split; [made_good Znum Znum_ok 0 none 1|]. split; [|vm_compute; reflexivity].
  intros h Hh. assert (X : forallb (fun h => ht_coupling h =? 0) (h_terms (m_ham m)) = true) by (vm_compute; reflexivity).
  rewrite forallb_forall in X. apply X in Hh. apply Z.eqb_eq in Hh. rewrite Hh. reflexivity.
Qed.

(** The same model at the opposite momentum. *)
Example C47_nonvacuous : let e := d_env 1 in let e' := d_env (-1) in let m := made Znum 0 two in
  opposite e e' /\ ph e [2] <> ph e' [2] /\ (exists fs cs, built Znum 1 m fs cs) /\ good_model m 1 /\ (exists f, mirror_symmetric e f m) /\
  regular_at e id_ord m /\ (forall sp, spsolve_ok sp -> greens e sp id_ord m = Ok two_value /\ greens e' sp id_ord m = Ok two_value) /\ two_value <> G0 e.
Proof.
  intros e e' m. split; [exact d_opposite|]. split; [intros H; discriminate H|].
  assert (X : good_model m 1 /\ accepts Znum (from_parameters 1 1 0 None 1) two m /\ built Znum 1 m (flat_map (fun a => if n_ltb Znum (n_0 Znum) 0 then [a_freq a; n_opp Znum (a_freq a)] else [a_freq a]) two) (map a_type two)) by (made_good Znum Znum_ok 0 two 1).
  destruct X as [G [_ B]]. split; [eexists; eexists; exact B|]. split; [exact G|].
  split; [exact (C47_built Z Qcf Znum e Znum_ok Z.opp_involutive (fun x => q_opp x) 1%nat m _ _ B)|].
  destruct (fast_value e m 1 two_value G) as [R V]; [vm_compute; reflexivity|]. destruct (fast_value e' m 1 two_value G) as [_ V']; [vm_compute; reflexivity|].
  split; [exact R|]. split; [|intros H; discriminate H]. intros sp SO. split; [apply V; exact SO|apply V'; exact SO].
Qed.

(** Arithmetic in which the prefactors are exactly (1, 0), as they are in
    floating point at low temperature. *)
Definition Z0num : numops Z :=
  mkNum Z 0 1 2 Z.mul Z.div Z.opp Z.abs (fun x => if x <? 0 then Err ValueError else Ok (Z.sqrt x))
    (fun _ => 0) (fun x => x) (fun _ => 1) (fun _ => 0) Z.eqb Z.ltb.
Lemma Z0num_ok : num_ok Z0num.
Proof. constructor; cbn; [intros; apply Z.abs_opp|]. intros x e. destruct (x <? 0); congruence. Qed.
Lemma Z0_frozen : forall s a, frozen Z0num (d_env s) 1 a.
Proof. intros s a g. cbn. rewrite Z.mul_0_r. split; reflexivity. Qed.

Definition one : list (add_args Z) := [tcall "Holstein" 3 2 1 1 (Some 2) (Some 1)].
Example C48_nonvacuous : let e := d_env 1 in let m := made Z0num 1 one in let m0 := made Z0num 0 one in
  accepts Z0num (from_parameters 1 1 1 None 1) one m /\ accepts Z0num (from_parameters 1 1 0 None 1) one m0 /\
  good_model m 2 /\ good_model m0 1 /\ (forall a, In a one -> frozen Z0num e 1 a /\ a_override a = None) /\ distinct Z0num (doubled_freqs Z0num one) /\
  regular_at e id_ord m /\ regular_at e id_ord m0 /\
  forall sp, spsolve_ok sp -> greens e sp id_ord m = Ok (q 23 19) /\ greens e sp id_ord m0 = Ok (q 23 19).
Proof.
  intros e m m0. assert (X : good_model m 2 /\ accepts Z0num (from_parameters 1 1 1 None 1) one m /\ built Z0num 1 m [3; -3] ["Holstein"%string]) by (made_good Z0num Z0num_ok 1 one 2).
  assert (X0 : good_model m0 1 /\ accepts Z0num (from_parameters 1 1 0 None 1) one m0 /\ built Z0num 1 m0 [3] ["Holstein"%string]) by (made_good Z0num Z0num_ok 0 one 1).
  destruct X as [G [A _]], X0 as [G0' [A0 _]]. split; [exact A|]. split; [exact A0|]. split; [exact G|]. split; [exact G0'|].
  split; [intros a [<-|[]]; split; [apply Z0_frozen|reflexivity]|]. split; [vm_compute; repeat constructor|].
  destruct (fast_value e m 2 (q 23 19) G) as [R V]; [vm_compute; reflexivity|]. destruct (fast_value e m0 1 (q 23 19) G0') as [R0 V0]; [vm_compute; reflexivity|].
  split; [exact R|]. split; [exact R0|]. intros sp SO. split; [apply V; exact SO|apply V0; exact SO].
Qed.

(** With two physical types and a fictitious extent larger than both physical
    ones, the results differ although all fictitious couplings vanish: the
    default absolute extent is the maximum over all types, so the doubled
    system admits clouds in which the two physical types are further apart. *)
Definition apart : list (add_args Z) := [tcall "Holstein" 3 1 1 1 (Some 2) (Some 1); tcall "Holstein" 5 1 1 1 (Some 1) (Some 1)].
Theorem C48_extent_refuted : exists (e : env Z Qcf) l m m0, additive e /\
  (forall a, In a l -> frozen Z0num e 1 a /\ a_override a = None) /\ distinct Z0num (doubled_freqs Z0num l) /\
  accepts Z0num (from_parameters 1 1 1 None 1) l m /\ accepts Z0num (from_parameters 1 1 0 None 1) l m0 /\
  good_model m 2 /\ good_model m0 1 /\ regular_at e id_ord m /\ regular_at e id_ord m0 /\
  exists g g0, g <> g0 /\ forall sp, spsolve_ok sp -> greens e sp id_ord m = Ok g /\ greens e sp id_ord m0 = Ok g0.
Proof.
  pose (m := made Z0num 1 apart). pose (m0 := made Z0num 0 apart).
  assert (X : good_model m 2 /\ accepts Z0num (from_parameters 1 1 1 None 1) apart m /\ built Z0num 1 m [3; -3; 5; -5] ["Holstein"; "Holstein"]%string) by (made_good Z0num Z0num_ok 1 apart 2).
  assert (X0 : good_model m0 1 /\ accepts Z0num (from_parameters 1 1 0 None 1) apart m0 /\ built Z0num 1 m0 [3; 5] ["Holstein"; "Holstein"]%string) by (made_good Z0num Z0num_ok 0 apart 1).
  destruct X as [G [A _]], X0 as [G0' [A0 _]]. exists (d_env 1), apart, m, m0. split; [apply d_additive|].
  split; [intros a [<-|[<-|[]]]; split; try apply Z0_frozen; reflexivity|]. split; [vm_compute; repeat constructor|].
  split; [exact A|]. split; [exact A0|]. split; [exact G|]. split; [exact G0'|].
  destruct (fast_ok (d_env 1) m 2 (fun g => negb (qb g (q 4013 3677))) G) as [R [g [Ng V]]]; [vm_compute; reflexivity|].
  destruct (fast_value (d_env 1) m0 1 (q 4013 3677) G0') as [R0 V0]; [vm_compute; reflexivity|].
  split; [exact R|]. split; [exact R0|]. exists g, (q 4013 3677). split.
  - intros E. rewrite E in Ng. vm_compute in Ng. discriminate Ng.
  - intros sp SO. split; [apply V; exact SO|apply V0; exact SO].
Qed.
Print Assumptions C48_extent_refuted.

(** On the reals: Holstein coupling 1, frequency 1, no hopping, at the point
    (k, 0, 1); the 2 x 2 system has determinant (3 - i)/2. *)
Definition r_model : model R :=
  mkModel 1%R 0%R (mkHam [ mkHterm "Holstein" (iv 0) (iv 0) Plus (- (1 * 1))%R 0 1%R; mkHterm "Holstein" (iv 0) (iv 0) Minus (- (1 * 1))%R 0 1%R ] [1%R] 1 0%R) None [1] [1] None 1.
Definition r_calls : list (add_args R) := [mkAdd "Holstein" 1%R 1 1 None None (Some 1%R) None None].

Lemma r_add : model_add Rnum (from_parameters 0%R 1%R 0%R None 1) (mkAdd "Holstein" 1%R 1 1 None None (Some 1%R) None None) = Ok ([LDebug], r_model).
Proof.
  unfold model_add. cbn [from_parameters m_temp Rnum n_ltb n_0]. destruct (Rlt_dec 0 0) as [H|H]; [lra|]. cbn [andb a_N a_M a_Mtfd a_Ntfd a_cs a_dcs a_override is_none lt1 orb xorb negb].
  change (1 <? 1) with false. cbn [orb]. rewrite andb_false_r. unfold tfd_prefactors. cbn [Rnum n_ltb n_0]. destruct (Rlt_dec 0 0) as [H'|_]; [lra|]. reflexivity.
Qed.
Lemma r_adds : adds Rnum (from_parameters 0%R 1%R 0%R None 1) r_calls = Ok r_model.
Proof. unfold r_calls. cbn [adds]. rewrite r_add. reflexivity. Qed.
Lemma r_built : built Rnum 1 r_model [1%R] ["Holstein"%string].
Proof.
  pose proof (built_add Rnum 1 _ [] [] _ _ _ (built_start Rnum 1 0%R 1%R 0%R None) r_add) as B. cbn [app from_parameters m_temp] in B.
  cbn [Rnum n_ltb n_0] in B. destruct (Rlt_dec 0 0) as [H|H]; [lra|]. apply B; [|reflexivity]. intros [X|[]]. discriminate X.
Qed.
Lemma r_good : good_model r_model 1.
Proof.
  constructor; try (simpl; lia).
  - repeat split; simpl; lia.
  - reflexivity.
  - discriminate.
  - intros [|t] H; simpl in *; lia.
  - intros [|t] H; simpl in *; lia.
  - intros h H. simpl in H. repeat (destruct H as [<-|H]; [simpl; lia|]). destruct H.
  - intros h H. simpl in H. repeat (destruct H as [<-|H]; [reflexivity|]). destruct H.
  - intros h H. simpl in H. repeat (destruct H as [<-|H]; [reflexivity|]). destruct H.
  - intros [|t] H; [|simpl in H; lia]. eexists. split; [left; reflexivity|]. split; reflexivity.
  - eexists. split; [right; left; reflexivity|reflexivity].
  - intros h h' _ H. simpl in H. repeat (destruct H as [<-|H]; [discriminate|]). destruct H.
Qed.
Lemma r_system : forall (K : cring) (e : env R K), exists s v, prime_system id_ord r_model = Ok s /\ scaffold e (full_basis s) s = Ok (
  mkCoo 2 2 [(1%nat, 0%nat, kmul (kmul (kmul (ev e (- (1 * 1))%R) (kadd k1 k0)) (G0 e)) (ph e [0])); (1%nat, 1%nat, k1);
             (0%nat, 1%nat, kmul (kmul (kmul (ev e (- (1 * 1))%R) (kadd k1 k0)) (ph e [0])) (g0 e [0] [(1%R, 1)])); (0%nat, 0%nat, k1)], v).
Proof. intros K e. do 2 eexists. split; vm_compute; reflexivity. Qed.

Lemma r_regular : forall k, regular_at (phys_env r_model k 0 1) id_ord r_model.
Proof.
  intros k. destruct (r_system CR (phys_env r_model k 0 1)) as [s [v [E ES]]]. eexists. eexists. eexists. split; [exact E|]. split; [exact ES|].
  intros x Hx. cbn [c_rows c_cols c_ent] in *.
  assert (V0 : G0 (phys_env r_model k 0 1) = (0, -1)%R).
  { cbn [phys_env G0]. unfold G0_k_omega. cbn [r_model m_lattice m_ham h_hop]. apply Ceq; unfold Cdiv, Cinv, Cmul, Cadd, Ci, RtoC, C1, Cnorm2, Re, Im; cbn [fst snd]; field; lra. }
  assert (V1 : g0 (phys_env r_model k 0 1) [0] [(1%R, 1)] = (-1 / 2, -1 / 2)%R).
  { cbn [phys_env g0]. unfold g0_delta_omega, half_of, shift_of. cbn [r_model m_lattice m_ham h_hop hd fold_right fst snd].
    destruct (Req_EM_T 0 0) as [_|H]; [|exfalso; apply H; reflexivity]. destruct (Req_EM_T (IZR 0 / 2) 0) as [_|H]; [|exfalso; apply H; cbn; lra].
    apply Ceq; unfold Cdiv, Cinv, Cmul, Cadd, Ci, RtoC, C1, Cnorm2, Re, Im; cbn [fst snd]; field; lra. }
  assert (V2 : ph (phys_env r_model k 0 1) [0] = Cplx.C1) by apply (op_one _ _ (C47_opposite r_model k 0 1)).
  assert (V3 : ev (phys_env r_model k 0 1) (- (1 * 1))%R = (-1, 0)%R) by (cbn [phys_env ev]; unfold RtoC; f_equal; lra).
  rewrite V0, V1, V2, V3 in Hx.
  pose proof (Hx 0%nat ltac:(lia)) as H0. pose proof (Hx 1%nat ltac:(lia)) as H1. clear Hx E ES V0 V1 V2 V3.
  unfold mv in H0, H1. cbn in H0, H1. destruct (x 0%nat) as [a b] eqn:X0. destruct (x 1%nat) as [c d] eqn:X1.
  unfold Cadd, Cmul, Cplx.C0, Cplx.C1, Re, Im in H0, H1. cbn [fst snd] in H0, H1.
  assert (P0 : forall p q : C, p = q -> Re p = Re q /\ Im p = Im q) by (intros p q ->; auto). apply P0 in H0, H1. unfold Re, Im in H0, H1. cbn [fst snd] in H0, H1.
  destruct H0 as [E1 E2], H1 as [E3 E4].
  assert (a = 0 /\ b = 0 /\ c = 0 /\ d = 0)%R as [-> [-> [-> ->]]] by (repeat split; lra).
  intros i Hi. destruct i as [|[|i]]; [exact X0|exact X1|lia].
Qed.

Example C42_physical_nonvacuous : (forall a, In a r_calls -> a_cs a <> None) /\ adds Rnum (from_parameters 0%R 1%R 0%R None 1) r_calls = Ok r_model /\
  good_model r_model 1 /\ regular_at (phys_env r_model 3 0 1) id_ord r_model.
Proof. split; [intros a [<-|[]]; discriminate|]. split; [exact r_adds|]. split; [exact r_good|apply r_regular]. Qed.

Example C47_physical_nonvacuous : built Rnum 1 r_model [1%R] ["Holstein"%string] /\ good_model r_model 1 /\ regular_at (phys_env r_model 3 0 1) id_ord r_model.
Proof. split; [exact r_built|]. split; [exact r_good|apply r_regular]. Qed.
