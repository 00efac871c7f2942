(** Property theorem C57: from the calls of the user to the returned array. *)
From Coq Require Import String ZArith List Bool Lia Permutation Reals Lra QArith Qreals.
From Verif Require Import Base NdArray Config Spec Model HModel Space Spec_space Term Equation System Spec_engine Props_Engine
  Ring Coef Spec_eom Solvers Spec_solve LinSolve Spec_model Spec_sym Cplx Physics Props_Physics Props_Model Props_Solve Props_Sym Spec_spectral Props_Spectral
  Spec_green Props_Green Utils Mpi Spec_mpi Props_Mpi Petsc Spec_petsc Props_Petsc Cache Props_Cache.
From Verif Require HModel_proofs Mpi_proofs Cache_proofs Sysok_proofs Sparse_proofs.
Import ListNotations.
Open Scope list_scope.
Open Scope Z_scope.

(** [f k w eta] is the Green's function of the model: the value at the
    phonon-free state of the row of the resolvent of the Hamiltonian. *)
Definition exact_G (m : model R) (f : R -> R -> R -> C) : Prop :=
  exists ae c, good_model m ae /\ on_lattice m c /\
    forall k w eta, (0 < eta)%R -> exists Psi, greens_row m ae c k (w, eta) Psi /\ f k w eta = Psi vacuum 0.

(** A model made by the calls [cs], on which the theory applies. *)
Record usable (m : model R) : Prop := {
  us_calls : exists fs cs, built Rnum 1 m fs cs /\ cs <> [] /\ Spec_model.distinct Rnum fs /\
    ((forall c, In c cs -> c = "BondPeierls"%string) \/ (forall c, In c cs -> c <> "BondPeierls"%string));
  us_mps : forall k, m_mps m = Some k -> 1 <= k;
  us_aext : forall k, m_aext m = Some k -> 1 <= k;
  us_lattice : exact_lattice m;
  us_hop : (0 <= h_hop (m_ham m))%R }.

(** A MUMPS over the complex numbers. *)
Definition c_mumps (n : nat) (tr : list (@triplet CR)) (b : nat -> CR) : nat -> CR :=
  gauss_sparse (F := CF) C_eq_dec (mkCoo n n tr) (mkCoo n 1 (map (fun i => (i, 0%nat, b i)) (seq 0 n))).
Lemma c_column : forall (b : nat -> CR) n a i, (a <= i < a + n)%nat ->
  entry (K := CR) (map (fun i => (i, 0%nat, b i)) (seq a n)) i 0 = b i.
Proof.
  intros b n. unfold entry. induction n as [|n IH]; intros a i H; [lia|]. cbn [seq map filter fst snd]. rewrite andb_true_r.
  destruct (Nat.eqb_spec a i) as [->|N].
  - cbn [map snd]. rewrite Sparse_proofs.ksum_cons.
    assert (Z : forall m c, (i < c)%nat -> filter (fun p : nat * nat * CR => Nat.eqb (fst (fst p)) i && Nat.eqb (snd (fst p)) 0) (map (fun i => (i, 0%nat, b i)) (seq c m)) = []).
    { induction m as [|m IHm]; intros c L; [reflexivity|]. cbn [seq map filter fst snd]. destruct (Nat.eqb_spec c i); [lia|]. cbn [andb]. apply IHm. lia. }
    rewrite Z by lia. cbn [map]. destruct (b i) as [x y]. apply injective_projections; cbn; ring.
  - apply IH. lia.
Qed.
Lemma c_mumps_ok : mumps_ok (K := CR) c_mumps.
Proof.
  intros n tr b NS i Hi. pose proof (gauss_spsolve_ok (F := CF) C_eq_dec (mkCoo n n tr) (mkCoo n 1 (map (fun i => (i, 0%nat, b i)) (seq 0 n))) eq_refl eq_refl NS i Hi) as H.
  cbn [c_ent] in H. rewrite c_column in H by lia. exact H.
Qed.

Theorem C57_solvers : forall m ord sp ls mumps, usable m -> (forall k l, Permutation (ord k l) l) ->
  spsolve_ok (K := CR) sp -> lsolve_ok (F := CF) ls -> mumps_ok (K := CR) mumps ->
  exists s f, prime_system ord m = Ok s /\ exact_G m f /\
    forall k w eta, (0 < eta)%R -> let e := phys_env m k w eta in
      (Im (f k w eta) < 0)%R /\ (Cabs (f k w eta) <= 1 / eta)%R /\
      sparse_solve e sp s = Ok (f k w eta) /\ dense_solve (F := CF) e ls s = Ok (f k w eta) /\
      forall p, (1 <= p <= List.length (all_eqs s))%nat -> mass_solve mumps e s p = Ok (f k w eta).
Proof.
  intros m ord sp ls mumps [[fs [cs [B [Hc [D Hb]]]]] Hm Ha Hl Ht] P SO LO MO.
  destruct (HModel_proofs.built_good Rnum (proj1 Rnum_ok) m fs cs B Hc D Hm Ha Hb) as [ae G]. destruct (C50_lattice m fs cs ae B G) as [c L].
  assert (Hh : forall k w eta, hermitian (phys_env m k w eta) m) by (intros; exact (C51_hermitian m fs cs ae k w eta B G)).
  destruct (C52_regular m ae c ord 0 0 1 G (Hh _ _ _) L Hl ltac:(lra) P) as [s [_ [_ [E _]]]].
  assert (V : forall k w eta, (0 < eta)%R -> exists g Psi, sparse_solve (phys_env m k w eta) sp s = Ok g /\ greens_row m ae c k (w, eta) Psi /\ g = Psi vacuum 0 /\ (Im g < 0)%R /\ (Cabs g <= 1 / eta)%R).
  { intros k w eta He. destruct (C56_exists m ae c k w eta G (Hh _ _ _) L Hl Ht He) as [Psi Ro].
    pose proof (C56_green m ae c ord sp k w eta Psi G (Hh _ _ _) L Hl Ht He P SO Ro) as Eg.
    destruct (C51_spectral m ae c ord sp k w eta G (Hh _ _ _) L Hl He P SO) as [g [Eg' [N [_ A]]]].
    rewrite Eg in Eg'. injection Eg' as <-. exists (Psi vacuum 0), Psi. unfold greens in Eg. rewrite E in Eg. cbn [bind] in Eg. auto. }
  exists s, (fun k w eta => match sparse_solve (phys_env m k w eta) sp s with Ok g => g | Err _ => Cplx.C0 end).
  split; [exact E|]. split.
  - exists ae, c. split; [exact G|]. split; [exact L|]. intros k w eta He. destruct (V k w eta He) as [g [Psi [Eg [Ro [X _]]]]]. exists Psi. split; [exact Ro|]. rewrite Eg. exact X.
  - intros k w eta He e. destruct (V k w eta He) as [g [Psi [Eg [Ro [X [N A]]]]]]. fold e in Eg |- *. rewrite Eg. split; [exact N|]. split; [exact A|]. split; [reflexivity|]. split.
    + rewrite X. exact (C56_dense m ae c ord s ls k w eta Psi G (Hh _ _ _) L Hl Ht He P E LO Ro).
    + intros p Hp. destruct (C52_regular m ae c ord k w eta G (Hh _ _ _) L Hl He P) as [s' [X' [v [E' [ES NS]]]]]. rewrite E in E'. injection E' as <-.
      destruct (C27_value R CR e m ae ord s mumps sp p X' v G P E MO SO ES NS Hp) as [g' [E1 [E2 _]]]. rewrite E1. rewrite Eg in E2. symmetry. exact E2.
Qed.
Print Assumptions C57_solvers.

(** greens_function of SparseSolver and DenseSolver without results directory,
    serial and on any number of ranks. *)
Theorem C57_grid : forall m ord sp ls, usable m -> (forall k l, Permutation (ord k l) l) -> spsolve_ok (K := CR) sp -> lsolve_ok (F := CF) ls ->
  exists s f, prime_system ord m = Ok s /\ exact_G m f /\
    forall eta k w ks ws, (0 < eta)%R -> elements (float_to_list k) = Ok ks -> elements (float_to_list w) = Ok ws ->
    forall solve, solve = (fun p => sparse_solve (phys_env m (fst p) (snd p) eta) sp s) \/ solve = (fun p => dense_solve (F := CF) (phys_env m (fst p) (snd p) eta) ls s) ->
    let a := grid_of (fun p => f (fst p) (snd p) eta) ks ws in
    greens_function (fun _ => solve) None 0 k w = Ok (Some a) /\
    (forall n, (1 <= n)%nat -> greens_function (fun _ => solve) (Some n) 0 k w = Ok (Some a)) /\
    (forall n r, (1 <= n)%nat -> (0 < r)%nat -> greens_function (fun _ => solve) (Some n) r k w = Ok None).
Proof.
  intros m ord sp ls U P SO LO. destruct (C57_solvers m ord sp ls _ U P SO LO c_mumps_ok) as [s [f [E [X V]]]].
  exists s, f. split; [exact E|]. split; [exact X|]. intros eta k w ks ws He Ek Ew sv Hs a.
  assert (F : forall x y, In x ks -> In y ws -> sv (x, y) = Ok (f x y eta)).
  { intros x y _ _. destruct (V x y eta He) as [_ [_ [V1 [V2 _]]]]. destruct Hs as [-> | ->]; [exact V1|exact V2]. }
  pose proof (Mpi_proofs.greens_serial sv (fun p => f (fst p) (snd p) eta) k w ks ws Ek Ew F) as S.
  split; [exact S|]. split; [intros n Hn; rewrite C24_serial by exact Hn; exact S|]. intros n r Hn Hr. exact (C24_others _ _ sv n r k w _ Hn Hr S).
Qed.
Print Assumptions C57_grid.

(** greens_function of MassSolverMUMPS on brigades of at most as many ranks as
    there are equations, if the grid can be padded: every rank gets an array
    whose leading part is the grid asked for. *)
Theorem C57_brigades : forall m ord mumps, usable m -> (forall k l, Permutation (ord k l) l) -> mumps_ok (K := CR) mumps ->
  exists s f, prime_system ord m = Ok s /\ exact_G m f /\
    forall eta k w ks ws W bs r (Meta : Type) (meta : nat -> R * R -> Meta) kp wp, (0 < eta)%R ->
      elements (float_to_list k) = Ok ks -> elements (float_to_list w) = Ok ws -> brigaded W bs -> brigade_size W bs <= len (all_eqs s) ->
      brigade_grid Rgrid W bs k w = Ok (kp, wp) ->
      let solve r p := g <- mass_solve mumps (phys_env m (fst p) (snd p) eta) s (Z.to_nat (brigade_size W bs)) ;; Ok (g, meta r p) in
      exists a metas, mass_greens Rgrid (fun _ : C => false) solve W bs r k w = Ok (a, metas) /\
        map (firstn (List.length ws)) (firstn (List.length ks) a) = grid_of (fun p => f (fst p) (snd p) eta) ks ws.
Proof.
  intros m ord mumps U P MO. destruct (C57_solvers m ord _ _ mumps U P (gauss_spsolve_ok (F := CF) C_eq_dec) (gauss_lsolve_ok (F := CF) C_eq_dec) MO) as [s [f [E [X V]]]].
  exists s, f. split; [exact E|]. split; [exact X|]. intros eta k w ks ws W bs r Meta meta kp wp He Ek Ew HB SZ EG sv.
  destruct (C25_result R C Meta Rgrid (fun _ : C => false) sv (fun p => f (fst p) (snd p) eta) meta W bs r k w kp wp HB EG) as [ms [_ ER]].
  - intros r' [x y] _ _. unfold sv. cbn [fst snd]. destruct (V x y eta He) as [_ [_ [_ [_ V5]]]]. rewrite V5; [reflexivity|].
    destruct (Mpi_proofs.brigaded_size W bs HB) as [_ [P2 _]]. unfold len in SZ. lia.
  - reflexivity.
  - exists (grid_of (fun p => f (fst p) (snd p) eta) kp wp), ms. split; [exact ER|]. exact (proj1 (C25_prefix R C Rgrid _ W bs k w ks ws kp wp HB Ek Ew EG)).
Qed.
Print Assumptions C57_brigades.

(** One results directory, empty at first; any sequence of points with names
    that differ whenever the points do.  Every result is exact, no error is
    ever logged, and so it stays. *)
Definition in_R (f : R -> R -> R -> C) (p : point) : C := f (Q2R (fst (fst p))) (Q2R (snd (fst p))) (Q2R (snd p)).
Theorem C57_directory : forall m ord sp ls, usable m -> (forall k l, Permutation (ord k l) l) -> spsolve_ok (K := CR) sp -> lsolve_ok (F := CF) ls ->
  exists s f, prime_system ord m = Ok s /\ exact_G m f /\
    forall e calc ps, e = (fun p : point => phys_env m (Q2R (fst (fst p))) (Q2R (snd (fst p))) (Q2R (snd p))) ->
      calc = (fun p => sparse_solve (e p) sp s) \/ calc = (fun p => dense_solve (F := CF) (e p) ls s) ->
      (forall p q, In p ps -> In q ps -> p = q \/ distinct p q) -> (forall p, In p ps -> (0 < snd p)%Q) ->
      let negative (g : C) := if Rlt_dec (- Im g / PI) 0 then true else false in
      exists d', history rkey calc negative (Some []) (map Solve ps) = (map (fun p => Ok (in_R f p)) ps, Some d') /\
        forall qs r p, ps = qs ++ p :: r -> exists d1 d2,
          history rkey calc negative (Some []) (map Solve qs) = (map (fun p => Ok (in_R f p)) qs, Some d1) /\
          solve rkey calc negative (Some d1) p = (Ok (in_R f p), false, d2).
Proof.
  intros m ord sp ls U P SO LO. destruct (C57_solvers m ord sp ls _ U P SO LO c_mumps_ok) as [s [f [E [X V]]]].
  exists s, f. split; [exact E|]. split; [exact X|]. intros e calc ps He Hc Hd Hp negative.
  assert (CV : forall p, In p ps -> calc p = Ok (in_R f p) /\ negative (in_R f p) = false).
  { intros p I. assert (Pp : (0 < Q2R (snd p))%R) by (rewrite <- RMicromega.Q2R_0; apply Qlt_Rlt; exact (Hp p I)).
    destruct (V (Q2R (fst (fst p))) (Q2R (snd (fst p))) (Q2R (snd p)) Pp) as [N [_ [V1 [V2 _]]]]. split.
    - subst e. destruct Hc as [-> | ->]; [exact V1|exact V2].
    - unfold negative. destruct (Rlt_dec (- Im (in_R f p) / PI) 0) as [L|L]; [|reflexivity]. exfalso. unfold in_R in L.
      set (x := Im _) in *. pose proof PI_RGT_0. assert (0 < - x / PI)%R; [|lra]. apply Rdiv_lt_0_compat; lra. }
  assert (MP : forall l, incl l ps -> map calc l = map (fun p => Ok (in_R f p)) l).
  { intros l I. apply map_ext_in. intros p Ip. apply CV. apply I. exact Ip. }
  destruct (C29_points CR calc negative ps Hd) as [d' [H1 _]]. exists d'. rewrite H1, MP by apply incl_refl. split; [reflexivity|].
  intros qs r p ->. assert (I : incl qs (qs ++ p :: r)) by (intros x Ix; apply in_or_app; auto).
  destruct (C29_points CR calc negative qs) as [d1 [H2 A]]; [intros; apply Hd; apply I; assumption|]. rewrite MP in H2 by exact I.
  assert (Ip : In p (qs ++ p :: r)) by (apply in_or_app; right; left; reflexivity). destruct (CV p Ip) as [Cp Np]. exists d1.
  unfold solve, pre_solve. destruct (fget (rkey p) d1) as [c|] eqn:G.
  - exists (Some d1). split; [exact H2|].
    assert (Q : exists q, In q qs /\ rkey q = rkey p).
    { destruct (in_dec string_dec (rkey p) (map rkey qs)) as [Y|Y]; [apply in_map_iff in Y; destruct Y as [q [Y1 Y2]]; exists q; auto|exfalso].
      destruct (C29_transparent point CR rkey calc negative [] qs) as [d3 [H3 [_ [_ B]]]].
      - intros q c0 _ Z0. discriminate Z0.
      - intros a b Ha Hb K. destruct (Hd a b (I a Ha) (I b Hb)) as [->|D]; [reflexivity|]. exfalso. exact (rkey_distinct a b K D).
      - rewrite MP in H3 by exact I. pose proof (eq_trans (eq_sym H2) H3) as H4. injection H4 as <-. rewrite B in G; [discriminate G|].
        intros q Hq K. apply Y. apply in_map_iff. exists q. auto. }
    destruct Q as [q [Q1 Q2]]. destruct (Hd q p (I q Q1) Ip) as [->|D]; [|exfalso; exact (rkey_distinct q p Q2 D)].
    rewrite (A p (in_R f p) Q1 Cp) in G. injection G as <-. reflexivity.
  - rewrite Cp. cbn [post_solve]. rewrite Np. eexists. split; [exact H2|reflexivity].
Qed.
Print Assumptions C57_directory.

(** Edwards' model of Props_Spectral. *)
Example C57_nonvacuous : usable (x_model 1) /\ spsolve_ok (K := CR) (gauss_sparse (F := CF) C_eq_dec) /\
  lsolve_ok (F := CF) (gauss_dense (F := CF) C_eq_dec) /\ mumps_ok (K := CR) c_mumps.
Proof.
  destruct C51_nonvacuous as [B [G [Hl _]]]. split; [|split; [exact (gauss_spsolve_ok (F := CF) C_eq_dec)|split; [exact (gauss_lsolve_ok (F := CF) C_eq_dec)|exact c_mumps_ok]]].
  split.
  - do 2 eexists. split; [exact B|]. split; [discriminate|]. split; [|right; intros c [<-|[]]; discriminate].
    repeat constructor.
  - intros k E. discriminate E.
  - intros k E. discriminate E.
  - left. exact Hl.
  - cbn. lra.
Qed.
