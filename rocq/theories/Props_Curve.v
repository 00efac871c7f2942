(** Property theorems C90: fitting a line to the spectral function. *)
From Coq Require Import String ZArith List Bool Lia Permutation Reals Lra.
From Verif Require Import Base NdArray Config Spec Model HModel Space Spec_space Term Equation System Spec_engine Props_Engine
  Ring Coef Spec_eom Solvers Spec_solve LinSolve Spec_model Spec_sym Cplx Physics Props_Physics Props_Model Props_Solve Props_Sym Spec_spectral Props_Spectral
  Spec_green Props_Green Spec_cutoff Spec_exact Spec_self Props_Self Spec_moments Props_MA Props_Moments Props_Pipeline Props_Thermal Spec_sum Props_Sum Spec_blur Props_Blur Spec_interp Props_Interp Curve Spec_curve.
From Verif Require Physics_proofs Curve_proofs.
Import ListNotations.
Open Scope list_scope.
Open Scope R_scope.

(** Fewer than three frequencies. *)
Theorem C90_few : forall E (cf : _ -> _ -> _ -> _ -> result (line * E)) ws As eta, fits cf -> length As = length ws -> (length ws < 3)%nat ->
  peak_scipy cf ws As eta = Err (if Nat.eqb (length ws) 0 then IndexError else TypeError).
Proof.
  intros E cf ws As eta F L H. unfold peak_scipy. destruct (rev ws) as [|w l] eqn:V.
  - apply (f_equal (@length R)) in V. rewrite rev_length in V. cbn [length] in V. rewrite V. reflexivity.
  - apply (f_equal (@length R)) in V. rewrite rev_length in V. cbn [length] in V. rewrite (fit_few cf F _ _ _ _ L H), V. reflexivity.
Qed.
Print Assumptions C90_few.

(** Data on a line: the solutions of the least-squares problem are this line and
    the one with both signs changed. *)
Theorem C90_exact : forall q ws p, 0 < l_scale q -> 0 < l_eta q -> three ws ->
  (least_squares line_at ws (map (fun w => line_at w q) ws) p <-> p = q \/ p = flip q).
Proof.
  intros q ws p HW Hh T. pose proof (Curve_proofs.dev_exact line_at ws q) as Z. split.
  - intros L. specialize (L q). rewrite Z in L. apply (Curve_proofs.line_unique p q ws T HW Hh). exact (Curve_proofs.dev_zero line_at ws (fun w => line_at w q) p L).
  - intros [-> | ->] r; [|rewrite (Curve_proofs.dev_ext line_at ws _ (flip q) q (fun w => Curve_proofs.flip_at w q))]; rewrite Z; apply Curve_proofs.dev_ge0.
Qed.
Print Assumptions C90_exact.

Lemma three_length : forall ws, three ws -> (3 <= length ws)%nat.
Proof.
  intros ws (x & y & z & Ix & Iy & Iz & Nxy & Nxz & Nyz). assert (ND : NoDup [x; y; z]) by (constructor; [intros [E|[E|[]]]; congruence|constructor; [intros [E|[]]; congruence|constructor; [intros []|constructor]]]).
  apply (NoDup_incl_length ND). intros t [<- |[<- |[<- |[]]]]; assumption.
Qed.

(** A line of weight one at the last frequency is found if the fit converges. *)
Theorem C90_start : forall E (cf : _ -> _ -> _ -> _ -> result (line * E)) ws w0 eta, fits cf -> 0 < eta -> three (ws ++ [w0]) -> let q := mkLine w0 1 eta in
  let r := peak_scipy cf (ws ++ [w0]) (map (fun w => line_at w q) (ws ++ [w0])) eta in
  r = Err RuntimeError \/ exists p e, r = Ok (p, e) /\ (p = q \/ p = flip q).
Proof.
  intros E cf ws w0 eta F He T q r. set (l := ws ++ [w0]) in *. assert (Er : r = cf line_at l (map (fun w => line_at w q) l) q) by (unfold r, peak_scipy, l; rewrite rev_unit; reflexivity).
  rewrite Er. destruct (fit_more cf F line_at l (map (fun w => line_at w q) l) q (map_length _ _) (three_length l T)) as [X|[p [e [X D]]]]; [left; exact X|right; exists p, e; split; [exact X|]].
  rewrite Curve_proofs.dev_exact in D. apply (Curve_proofs.line_unique p q l T); [cbn; lra|exact He|exact (Curve_proofs.dev_zero line_at l (fun w => line_at w q) p D)].
Qed.
Print Assumptions C90_start.

(** Nothing keeps the fit from a negative weight and width. *)
Definition flipping (f : R -> line -> R) (ws As : list R) (p0 : line) : result (line * unit) :=
  if Nat.ltb (length ws) 3 then Err TypeError
  else if Rle_dec (deviation2 f ws As (flip p0)) (deviation2 f ws As p0) then Ok (flip p0, tt) else Ok (p0, tt).
Theorem C90_sign_refuted : exists cf : _ -> _ -> _ -> _ -> result (line * unit), fits cf /\ forall ws w0 eta, 0 < eta -> three (ws ++ [w0]) ->
  let q := mkLine w0 1 eta in peak_scipy cf (ws ++ [w0]) (map (fun w => line_at w q) (ws ++ [w0])) eta = Ok (mkLine w0 (-1) (- eta), tt).
Proof.
  exists flipping. split.
  - split; intros f ws As p0 L H; unfold flipping; destruct (Nat.ltb_spec (length ws) 3); try lia; [reflexivity|]. right.
    destruct (Rle_dec (deviation2 f ws As (flip p0)) (deviation2 f ws As p0)) as [Q|Q]; do 2 eexists; (split; [reflexivity|]); [exact Q|lra].
  - intros ws w0 eta He T q. unfold peak_scipy. rewrite rev_unit. unfold flipping. pose proof (three_length _ T) as L. destruct (Nat.ltb_spec (length (ws ++ [w0])) 3) as [X|_]; [lia|].
    fold q. rewrite (Curve_proofs.dev_ext line_at _ _ (flip q) q (fun w => Curve_proofs.flip_at w q)). destruct (Rle_dec _ _) as [Q|Q]; [reflexivity|exfalso; apply Q; lra].
Qed.
Print Assumptions C90_sign_refuted.

(** Two frequencies would not be enough, even for positive weights of at most 1. *)
Theorem C90_two_refuted : exists p q x y, x <> y /\ 0 < l_scale p <= 1 /\ 0 < l_scale q <= 1 /\ 0 < l_eta p /\ 0 < l_eta q /\ l_scale p <> l_scale q /\
  line_at x p = line_at x q /\ line_at y p = line_at y q.
Proof.
  exists (mkLine 0 (4 / 5) 1), (mkLine 0 1 2), (-1), 1. cbn [l_scale l_eta]. pose proof PI_RGT_0. split; [lra|]. split; [lra|]. split; [lra|]. split; [lra|]. split; [lra|]. split; [lra|].
  split; unfold line_at, Physics.lorentzian; cbn [l_loc l_scale l_eta]; field; lra.
Qed.
Print Assumptions C90_two_refuted.

(** Without coupling the spectral function of the code is a line at the energy of
    the free particle, of weight one and of the width asked for ... *)
Theorem C90_free : forall m k eta sp ord A, usable m -> 0 < eta -> allowed ord -> spsolve_ok sp -> spectral_function m sp ord k eta A ->
  (forall h, In h (h_terms (m_ham m)) -> ht_coupling h = 0) -> forall w, A w = line_at w (mkLine (band m k) 1 eta).
Proof.
  intros m k eta sp ord A U He P SO HA Z w. destruct (usable_sound m U) as [ae [c [G _ _ _ _]]]. destruct (HA w) as [g [E ->]].
  rewrite (C42_free_physical m ae ord sp k w eta G P SO Z) in E. injection E as <-. pose proof PI_RGT_0 as PP.
  unfold line_at, Physics.lorentzian, G0_k_omega, band. cbn [l_loc l_scale l_eta]. set (t := 2 * h_hop (m_ham m) * cos (k * m_lattice m)).
  assert (D : 0 < (w - - t) * (w - - t) + eta * eta) by (pose proof (Rle_0_sqr (w - - t)) as S; unfold Rsqr in S; assert (0 < eta * eta) by (apply Rmult_lt_0_compat; lra); lra).
  unfold Cdiv, Cinv, Cadd, Cmul, Cplx.C1, Ci, RtoC, Cnorm2, Re, Im. cbn [fst snd]. field. repeat split; lra.
Qed.
Print Assumptions C90_free.

(** ... so that the fit finds just these. *)
Theorem C90_code : forall m k eta sp ord A ws p, usable m -> 0 < eta -> allowed ord -> spsolve_ok sp -> spectral_function m sp ord k eta A ->
  (forall h, In h (h_terms (m_ham m)) -> ht_coupling h = 0) -> three ws ->
  (least_squares line_at ws (map A ws) p <-> p = mkLine (band m k) 1 eta \/ p = mkLine (band m k) (-1) (- eta)).
Proof.
  intros m k eta sp ord A ws p U He P SO HA Z T. rewrite (map_ext _ _ (C90_free m k eta sp ord A U He P SO HA Z)).
  apply (C90_exact (mkLine (band m k) 1 eta) ws p); [cbn; lra|exact He|exact T].
Qed.
Print Assumptions C90_code.

Lemma hol_call : forall hop fr g, 0 <= hop -> holstein hop 1 fr g None 1 1 (hol hop 1 fr g None 1 1).
Proof.
  intros hop fr g Hh. split; [discriminate|]. split; [left; reflexivity|]. split; [exact Hh|]. exists [LDebug]. split; [|intros [X|[]]; discriminate X]. unfold model_add. cbn [from_parameters m_temp Rnum n_ltb n_0 a_N a_M a_Mtfd a_Ntfd a_cs a_dcs a_override is_none lt1 orb xorb negb].
  destruct (Rlt_dec 0 0) as [X|_]; [lra|]. cbn [andb]. change (1 <? 1)%Z with false. cbn [orb]. rewrite ?andb_false_r. unfold tfd_prefactors. cbn [Rnum n_ltb n_0]. destruct (Rlt_dec 0 0) as [X|_]; [lra|]. reflexivity.
Qed.

(** For the Holstein model the converse holds, whatever the interval of
    frequencies: with coupling the spectral function is not such a line. *)
Theorem C90_line : forall hop lat fr g mps M N m k ord sp eta A a b E, holstein hop lat fr g mps M N m -> allowed ord -> spsolve_ok sp -> 0 < eta -> a < b ->
  spectral_function m sp ord k eta A -> (forall w, a <= w <= b -> A w = line_at w (mkLine E 1 eta)) -> g = 0 /\ E = - (2 * hop * cos (k * lat)).
Proof.
  intros hop lat fr g mps M N m k ord sp eta A a b E Hm P SO He Hab HA HL.
  assert (X : exists hop' k', 0 <= hop' /\ - (2 * hop' * cos (k' * 1)) = E).
  { destruct (Rle_dec E 0) as [L|L]; [exists (- E / 2), 0|exists (E / 2), PI]; (split; [lra|]); [rewrite Rmult_0_l, cos_0; field|rewrite Rmult_1_r, cos_PI; field]. }
  destruct X as [hop' [k' [Hh HE]]]. pose proof (hol_call hop' 1 0 Hh) as Hm'. set (m' := hol hop' 1 1 0 None 1 1) in *. pose proof (holstein_usable _ _ _ _ _ _ _ _ Hm') as U'.
  destruct (C74_defined m' k' eta ord sp U' He P SO) as [A' [HA' _]].
  assert (F : forall w, A' w = line_at w (mkLine E 1 eta)).
  { intros w. rewrite (C90_free m' k' eta sp ord A' U' He P SO HA'); [f_equal; f_equal; exact HE|]. intros h Hi. unfold m', hol in Hi. cbn [m_ham h_terms] in Hi. destruct Hi as [<- |[<- |[]]]; cbn [ht_coupling]; ring. }
  destruct (C87_holstein _ _ _ _ _ _ _ _ _ _ _ _ _ _ _ _ k k' ord ord sp sp eta A A' a b Hm Hm' P P SO SO He Hab HA HA') as [B [G _]].
  { intros w Hw. rewrite F. apply HL. exact Hw. }
  split; [|rewrite <- HE; lra]. replace (0 ^ 2) with 0 in G by ring. replace (g ^ 2) with (g * g) in G by ring. apply Rmult_integral in G. destruct G; assumption.
Qed.
Print Assumptions C90_line.

(** The free particle at k = 0 on the frequencies -3, -1 and 0, and a Holstein
    model with coupling 1, for which no line fits on [-3, 0]. *)
Example C90_nonvacuous : three [-3; -1; 0] /\ holstein 1 1 1 0 None 1 1 (hol 1 1 1 0 None 1 1) /\ holstein 1 1 1 1 None 1 1 (hol 1 1 1 1 None 1 1) /\
  (exists A, spectral_function (hol 1 1 1 0 None 1 1) (gauss_sparse (F := CF) C_eq_dec) id_ord 0 1 A /\ forall p, least_squares line_at [-3; -1; 0] (map A [-3; -1; 0]) p <-> p = mkLine (-2) 1 1 \/ p = mkLine (-2) (-1) (- 1)) /\
  exists A, spectral_function (hol 1 1 1 1 None 1 1) (gauss_sparse (F := CF) C_eq_dec) id_ord 0 1 A /\ forall E, ~ forall w, -3 <= w <= 0 -> A w = line_at w (mkLine E 1 1).
Proof.
  assert (T : three [-3; -1; 0]) by (exists (-3), (-1), 0; cbn [In]; repeat split; auto; lra). pose proof (hol_call 1 1 0 ltac:(lra)) as H0. pose proof (hol_call 1 1 1 ltac:(lra)) as H1.
  pose proof (gauss_spsolve_ok (F := CF) C_eq_dec) as SO. split; [exact T|]. split; [exact H0|]. split; [exact H1|]. split.
  - pose proof (holstein_usable _ _ _ _ _ _ _ _ H0) as U. destruct (C74_defined _ 0 1 id_ord _ U ltac:(lra) id_perm SO) as [A [HA _]]. exists A. split; [exact HA|]. intros p.
    assert (B : band (hol 1 1 1 0 None 1 1) 0 = -2) by (unfold band, hol; cbn [m_ham h_hop m_lattice]; rewrite Rmult_0_l, cos_0; ring).
    pose proof (C90_code _ 0 1 _ id_ord A [-3; -1; 0] p U ltac:(lra) id_perm SO HA) as Q. rewrite B in Q. apply Q; [|exact T]. intros h Hi. unfold hol in Hi. cbn [m_ham h_terms] in Hi. destruct Hi as [<- |[<- |[]]]; cbn [ht_coupling]; ring.
  - pose proof (holstein_usable _ _ _ _ _ _ _ _ H1) as U. destruct (C74_defined _ 0 1 id_ord _ U ltac:(lra) id_perm SO) as [A [HA _]]. exists A. split; [exact HA|]. intros E HL.
    destruct (C90_line _ _ _ _ _ _ _ _ 0 id_ord _ 1 A (-3) 0 E H1 id_perm SO ltac:(lra) ltac:(lra) HA HL) as [X _]. lra.
Qed.
Print Assumptions C90_nonvacuous.
