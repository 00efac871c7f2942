(** The flux of norm between numbers of phonons, and the dependence of the
    Green's function on the cutoff (C61). *)
From Coq Require Import String ZArith Reals List Bool Lia Lra Permutation Ring.
From Verif Require Import Base NdArray NdArray_proofs Config Spec Spec_ops Config_proofs Modify_proofs Legal_proofs
  Model Space Spec_space Space_proofs Count_proofs Render Render_proofs Term Equation System Spec_engine
  Term_proofs Equation_proofs System_proofs Prime_proofs Engine_proofs Order_proofs Ring Coef Spec_eom Eom_proofs
  Solvers Spec_solve Sysok_proofs Sparse_proofs Rows_proofs HModel Spec_model Cplx Physics Physics_proofs
  Toeplitz_proofs Weight_proofs Spec_spectral Energy_proofs Spectral_proofs.
From Verif Require Spec_self Spec_cutoff.
Import ListNotations.
Open Scope list_scope.
Open Scope Z_scope.

(** * Sums *)
Lemma Rsum_cons : forall {A} (f : A -> R) x l, Rsum (map f (x :: l)) = (f x + Rsum (map f l))%R.
Proof. reflexivity. Qed.

Lemma Rsum_app : forall {A} (f : A -> R) l l', Rsum (map f (l ++ l')) = (Rsum (map f l) + Rsum (map f l'))%R.
Proof. induction l as [|x l IH]; intros l'; [unfold Rsum; cbn [app map fold_right]; lra|]. cbn [app]. rewrite !Rsum_cons, IH. lra. Qed.

Lemma Rsum_nonneg : forall {A} (f : A -> R) l, (forall x, In x l -> 0 <= f x)%R -> (0 <= Rsum (map f l))%R.
Proof. intros A f l H. rewrite <- (Rsum_0 l). apply Rsum_le. exact H. Qed.

Lemma Rsum_scal : forall {A} (f : A -> R) k l, Rsum (map (fun x => k * f x)%R l) = (k * Rsum (map f l))%R.
Proof. induction l as [|x l IH]; [unfold Rsum; cbn [map fold_right]; lra|]. rewrite !Rsum_cons, IH. lra. Qed.

Lemma Rsum_add : forall {A} (f g : A -> R) l, Rsum (map (fun x => f x + g x)%R l) = (Rsum (map f l) + Rsum (map g l))%R.
Proof. induction l as [|x l IH]; [unfold Rsum; cbn [map fold_right]; lra|]. rewrite !Rsum_cons, IH. lra. Qed.

Lemma Rsum_perm : forall {A} (f : A -> R) l l', Permutation l l' -> Rsum (map f l) = Rsum (map f l').
Proof. intros A f l l' P. induction P; rewrite ?Rsum_cons; try lra. Qed.

Lemma Rsum_flat : forall {A B} (g : A -> list B) (f : B -> R) l, Rsum (map f (flat_map g l)) = Rsum (map (fun x => Rsum (map f (g x))) l).
Proof. induction l as [|x l IH]; [reflexivity|]. cbn [flat_map]. rewrite Rsum_app, IH. reflexivity. Qed.

Lemma Rsum_incl : forall {A} (f : A -> R) l l', NoDup l -> incl l l' -> (forall x, In x l' -> 0 <= f x)%R -> (Rsum (map f l) <= Rsum (map f l'))%R.
Proof.
  intros A f l. induction l as [|x l IH]; intros l' ND I P; [apply Rsum_nonneg; exact P|].
  inversion ND as [|? ? N1 N2]; subst. destruct (in_split x l' (I x (or_introl eq_refl))) as [l1 [l2 ->]].
  rewrite (Rsum_perm f (l1 ++ x :: l2) (x :: l1 ++ l2)) by (apply Permutation_sym, Permutation_middle). rewrite !Rsum_cons.
  enough (Rsum (map f l) <= Rsum (map f (l1 ++ l2)))%R by lra. apply IH; [exact N2| |].
  - intros y Hy. assert (Ny : y <> x) by (intros ->; contradiction). specialize (I y (or_intror Hy)). apply in_app_iff in I. apply in_app_iff. destruct I as [I|[I|I]]; [auto|congruence|auto].
  - intros y Hy. apply P. apply in_app_iff in Hy. apply in_app_iff. cbn [In]. tauto.
Qed.

Lemma Cabs_0 : Cabs C0 = 0%R.
Proof. unfold Cabs, Cnorm2, C0, Re, Im. cbn [fst snd]. replace (0 * 0 + 0 * 0)%R with 0%R by ring. apply sqrt_0. Qed.

Lemma Rsum_abs : forall {A} (f : A -> CR) l, (Cabs (@ksum CR (map f l)) <= Rsum (map (fun x => Cabs (f x)) l))%R.
Proof.
  intros A f l. induction l as [|x l IH].
  - change (Cabs C0 <= 0)%R. rewrite Cabs_0. lra.
  - cbn [map]. rewrite ksum_cons. cbn [Rsum fold_right]. fold (Rsum (map (fun x => Cabs (f x)) l)).
    eapply Rle_trans; [apply Cabs_triangle|]. lra.
Qed.

Lemma Cabs_conj : forall z, Cabs (Cconj z) = Cabs z.
Proof. intros z. unfold Cabs. f_equal. unfold Cnorm2, Cconj, Re, Im. cbn. ring. Qed.

Lemma Im_abs : forall z, (Im z <= Cabs z)%R.
Proof.
  intros z. pose proof (Cabs_sq z) as S. pose proof (Cabs_ge0 z) as P. unfold Cnorm2 in S. pose proof (Rle_0_sqr (Re z)) as Q. unfold Rsqr in Q.
  destruct (Rle_lt_dec (Im z) (Cabs z)) as [L|L]; [exact L|exfalso; nra].
Qed.

(** * Numbers of phonons *)
Lemma sumZ_ge : forall l v, Forall (fun x => 0 <= x) l -> In v l -> v <= sumZ l.
Proof.
  induction l as [|x l IH]; intros v F H; [destruct H|]. inversion F as [|? ? F1 F2]; subst. pose proof (sumZ_nonneg l F2). cbn [sumZ fold_right]. fold (sumZ l).
  destruct H as [->|H]; [lia|]. pose proof (IH v F2 H). lia.
Qed.

Lemma dat_nonneg : forall a, valid_cloud a -> Forall (fun x => 0 <= x) (dat a).
Proof.
  intros a V. apply Forall_forall. intros v Hv. apply (dat_In_get a v (valid_wf a V)) in Hv. destruct Hv as [i [Hi <-]]. rewrite <- at_of by exact Hi. apply (valid_nonneg a V).
Qed.

Lemma occ_total : forall a t x, valid_cloud a -> occ a t x <= total a.
Proof.
  intros a t x V. unfold occ. destruct (Z.eq_dec (at_ a (Z.of_nat t :: x)) 0) as [E|E].
  - rewrite E. apply sumZ_nonneg, dat_nonneg. exact V.
  - destruct (at_nz _ _ E) as [i [Hi [_ Ei]]]. rewrite <- Ei. apply sumZ_ge; [apply dat_nonneg; exact V|]. apply dat_In_get; [apply valid_wf; exact V|]. eauto.
Qed.

Lemma type_total : forall a t, valid_cloud a -> (t < ntypes a)%nat -> total_type a t <= total a.
Proof.
  intros a t V Ht. pose proof V as [W [R _]]. rewrite (total_types a W) by lia.
  assert (F : Forall (fun x => 0 <= x) (map (total_type a) (seq 0 (ntypes a)))).
  { apply Forall_forall. intros v Hv. apply in_map_iff in Hv. destruct Hv as [t' [<- Ht']]. apply in_seq in Ht'. unfold total_type. apply sumZ_nonneg.
    apply Forall_forall. intros v Hv. apply in_map_iff in Hv. destruct Hv as [i [<- Hi]]. apply In_all_idx in Hi.
    assert (I : inr (shp a) (t' :: i)) by (unfold ntypes in *; destruct (shp a) as [|n0 r]; [cbn in R; lia|]; constructor; [cbn in Ht'; lia|exact Hi]).
    rewrite <- at_of by exact I. apply (valid_nonneg a V). }
  apply sumZ_ge; [exact F|]. apply in_map, in_seq. lia.
Qed.

(** * The flux *)
Section Cutoff.
Context {T : Type}.
Variable m : model T.
Variable ae : Z.
Hypothesis G : good_model m ae.
Let ops := h_terms (m_ham m).
Variable e : env T CR.
Variable eta : R.
Variable c : Z.
Hypothesis Heta : (0 < eta)%R.
Hypothesis Hherm : hermitian e m.
Hypothesis Hlat : on_lattice m c.
Hypothesis Hph : forall d, ph e [- d] = Cconj (ph e [d]).
Hypothesis Hunit : forall d, Cabs (ph e [d]) = 1%R.
Hypothesis Hg0 : forall l, exists w t, (forall d : Z, Cadd (Cmul (w, eta) (g0 e [2 * d] l)) (Cmul (RtoC t) (Cadd (g0 e [2 * (d + 1)] l) (g0 e [2 * (d - 1)] l)))
   = if Z.eq_dec d 0 then C1 else C0) /\ vanishes (fun d => g0 e [2 * d] l).
Variable z : R.
Hypothesis HG0 : Cmul (G0 e) (z, eta) = C1.
Variable cl : list nd.
Hypothesis ND : NoDup cl.
Hypothesis Hcl : forall a, In a cl <-> space m ae a /\ 1 <= total a.

(** The positions at which the unknowns of a cloud occur in the equations. *)
Definition ds (a : nd) : list Z := nodup Z.eq_dec (flat_map (fun h => map (yy h) (st m ae a h)) ops).

Lemma In_ds : forall a d, space m ae a -> (In d (ds a) <-> exists h x, In h ops /\ acts_at m ae a h [x] /\ d = yy h x).
Proof.
  intros a d Sa. unfold ds. rewrite nodup_In, in_flat_map. split.
  - intros [h [Hh H]]. apply in_map_iff in H. destruct H as [x [<- Hx]]. exists h, x. apply (st_spec m ae G a h Sa Hh) in Hx. auto.
  - intros [h [x [Hh [Hx ->]]]]. exists h. split; [exact Hh|]. apply in_map_iff. exists x. split; [reflexivity|]. apply (st_spec m ae G a h Sa Hh). exact Hx.
Qed.

Lemma ds_reached : forall a d, space m ae a -> In d (ds a) -> reached m ae a d.
Proof. intros a d Sa H. apply In_ds in H; [|exact Sa]. destruct H as [h [x [Hh [Hx ->]]]]. eapply yy_reached; eassumption. Qed.

(** The unknowns of the clouds with [n] phonons. *)
Definition grid (n : Z) : list (nd * Z) :=
  if n =? 0 then [(vac m, 0)] else flat_map (fun a => map (fun d => (a, d)) (ds a)) (filter (fun a => total a =? n) cl).

Lemma In_grid : forall n p, 1 <= n -> (In p (grid n) <-> space m ae (fst p) /\ total (fst p) = n /\ In (snd p) (ds (fst p))).
Proof.
  intros n [a d] Hn. unfold grid. destruct (Z.eqb_spec n 0) as [X|_]; [lia|]. rewrite in_flat_map. cbn [fst snd]. split.
  - intros [b [Hb H]]. apply filter_In in Hb. destruct Hb as [Hb Tb]. apply Z.eqb_eq in Tb. apply Hcl in Hb. apply in_map_iff in H. destruct H as [d' [E H]]. injection E as -> ->. tauto.
  - intros [Sa [Ta Hd]]. exists a. split; [apply filter_In; split; [apply Hcl; split; [exact Sa|lia]|apply Z.eqb_eq; exact Ta]|]. apply in_map_iff. eauto.
Qed.

Lemma NoDup_grid : forall n, NoDup (grid n).
Proof.
  intros n. unfold grid. destruct (n =? 0); [repeat constructor; intros []|]. apply NoDup_flat_map.
  - apply NoDup_filter. exact ND.
  - intros a _. apply NoDup_map_inj; [intros x y _ _ E; congruence|]. apply NoDup_nodup.
  - intros a a' p _ _ H H'. apply in_map_iff in H, H'. destruct H as [x [<- _]], H' as [y [E _]]. congruence.
Qed.

Definition mass (u : nd * list Z -> CR) (p : nd * Z) : R := (weight (fst p) * Cnorm2 (u (fst p, [snd p])))%R.
Definition level (u : nd * list Z -> CR) (n : Z) : R := Rsum (map (mass u) (grid n)).

Lemma mass_ge0 : forall u p, (0 <= mass u p)%R.
Proof. intros u p. unfold mass. pose proof (weight_pos (fst p)). pose proof (norm_ge0 (u (fst p, [snd p]))). nra. Qed.

Lemma level_ge0 : forall u n, (0 <= level u n)%R.
Proof. intros. apply Rsum_nonneg. intros. apply mass_ge0. Qed.

Lemma level_0 : forall u, level u 0 = Cnorm2 (u (vac m, [0])).
Proof. intros u. unfold level. cbn [grid Z.eqb map Rsum fold_right]. unfold mass. cbn [fst snd]. destruct (vac_valid m) as [V [T0 _]]. rewrite weight_free by (apply valid_total_free; assumption). lra. Qed.

(** Annihilation operators. *)
Definition annihilates (h : hterm T) : bool := match ht_dag h with Minus => true | Plus => false end.
Definition strength : R := Rsum (map (fun h => Cabs (ev e (ht_coupling h))) (filter annihilates ops)).

Lemma strength_ge0 : (0 <= strength)%R.
Proof. apply Rsum_nonneg. intros. apply Cabs_ge0. Qed.

Definition above (n : Z) : list nd := filter (fun a => n <=? total a) cl.
Lemma above_spec : forall n, 1 <= n -> forall a, In a (above n) <-> space m ae a /\ n <= total a.
Proof. intros n Hn a. unfold above. rewrite filter_In, Hcl, Z.leb_le. intuition lia. Qed.

Section Flux.
Variable u : nd * list Z -> CR.
Hypothesis Pu : proper u.

Lemma outer_in : forall n h a x, 0 <= n -> In h ops -> In (a, x) (outer m ae (n + 1) (above (n + 1)) h) ->
  annihilates h = true /\ space m ae a /\ total a = n + 1 /\ acts_at m ae a h [x] /\ total (fst (next a h x)) = n.
Proof.
  intros n h a x Hn Hh H. unfold outer in H. apply filter_In in H. destruct H as [H St]. apply (In_pairs m ae G _ _ (above_spec (n + 1) ltac:(lia)) h _ Hh) in H. cbn [fst snd] in H.
  destruct H as [Sa [Ta Hx]]. unfold stays in St. cbn [fst snd] in St. apply negb_true_iff, Z.leb_gt in St.
  destruct (next_spec m ae G a h x Sa Hh Hx) as [_ [_ [Tn _]]]. unfold sgn in Tn. unfold annihilates.
  destruct (ht_dag h); [lia|]. split; [reflexivity|]. split; [exact Sa|]. split; [lia|]. split; [exact Hx|lia].
Qed.

(** The unknown the pair (a, x) is coupled to. *)
Definition img (h : hterm T) (p : nd * Z) : nd * Z :=
  if total (fst (next (fst p) h (snd p))) =? 0 then (vac m, 0)
  else (fst (next (fst p) h (snd p)), phi1 h - 2 * snd p + 2 * snd (next (fst p) h (snd p))).

Lemma jump_img : forall h a x, space m ae a -> In h ops -> acts_at m ae a h [x] ->
  Cabs (jump e u (next a h x) (phi1 h - 2 * x)) = Cabs (u (fst (img h (a, x)), [snd (img h (a, x))])).
Proof.
  intros h a x Sa Hh Hx. unfold jump, img. cbn [fst snd]. destruct (Z.eqb_spec (total (fst (next a h x))) 0) as [E|E]; cbn [fst snd].
  - destruct (next_spec m ae G a h x Sa Hh Hx) as [Vb _]. destruct (vac_valid m) as [Vv [Tv _]].
    rewrite (Pu (fst (next a h x)) (vac m) [0] Vb Vv) by (apply valid_total_free; assumption).
    change (@kmul CR) with Cmul. rewrite Cabs_mul, Hunit. apply Rmult_1_l.
  - change (@kmul CR) with Cmul. rewrite Cabs_mul, Hunit. apply Rmult_1_l.
Qed.

Lemma outer_term : forall n h a x, 0 <= n -> In h ops -> In (a, x) (outer m ae (n + 1) (above (n + 1)) h) ->
  (Cabs (Tm e u h (a, x)) <= Cabs (ev e (ht_coupling h)) * (sqrt (IZR (n + 1)) / 2 * (mass u (a, yy h x) + mass u (img h (a, x)))))%R.
Proof.
  intros n h a x Hn Hh H. destruct (outer_in n h a x Hn Hh H) as [D [Sa [Ta [Hx Tb]]]].
  assert (Dh : ht_dag h = Minus) by (unfold annihilates in D; destruct (ht_dag h); [discriminate|reflexivity]).
  destruct (space_unfold m ae a Sa) as [Va _].
  set (r := sqrt (IZR (n + 1))). assert (R1 : (1 <= r)%R).
  { unfold r. rewrite <- sqrt_1. apply sqrt_le_1_alt. apply IZR_le. lia. }
  assert (RR : (r * r = IZR (n + 1))%R) by (apply sqrt_sqrt; apply IZR_le; lia).
  set (o := multi a h x). assert (O : 1 <= o <= n + 1).
  { unfold o, multi. rewrite Dh. destruct Hx as [_ Hx]. rewrite Dh in Hx. pose proof (occ_total a (ht_index h) [x] Va). lia. }
  assert (WB : (weight (fst (img h (a, x))) = weight a * IZR o)%R).
  { unfold img. cbn [fst snd]. destruct (Z.eqb_spec (total (fst (next a h x))) 0) as [E|E]; cbn [fst].
    - destruct (step_vacuum m ae G a h x Sa Hh Hx E) as [_ [_ [_ [Mu We]]]]. fold o in Mu. rewrite Mu, We. destruct (vac_valid m) as [V [T0 _]].
      rewrite weight_free by (apply valid_total_free; assumption). lra.
    - destruct (op_adjoint m e Hherm h Hh) as [h' [Hh' [A _]]]. destruct (step_back m ae G a h h' x Sa Hh Hh' A Hx ltac:(lia)) as [_ [_ [_ WW]]].
      fold o in WW. rewrite <- WW. destruct A as [_ [_ [A _]]]. unfold multi. rewrite A, Dh. cbn [flip]. lra. }
  unfold Tm, part, src_at. cbn [fst snd]. rewrite kz_R. fold o.
  change (@kmul CR) with Cmul. rewrite !Cabs_mul, Cabs_conj, Cabs_opp, !Cabs_mul, !Cabs_R. rewrite (jump_img h a x Sa Hh Hx).
  unfold mass. cbn [fst snd]. rewrite WB, <- !Cabs_sq.
  set (ua := Cabs (u (a, [yy h x]))). set (ub := Cabs (u (fst (img h (a, x)), [snd (img h (a, x))]))). set (g := Cabs (ev e (ht_coupling h))).
  assert (Pa : (0 <= ua)%R) by apply Cabs_ge0. assert (Pb : (0 <= ub)%R) by apply Cabs_ge0. assert (Pg : (0 <= g)%R) by apply Cabs_ge0.
  pose proof (weight_pos a) as WP. rewrite (Rabs_right (weight a)) by lra. rewrite (Rabs_right (IZR o)) by (apply Rle_ge, IZR_le; lia).
  assert (OR : (1 <= IZR o <= r * r)%R) by (rewrite RR; split; apply IZR_le; lia). clearbody ua ub g r o. clear - Pa Pb Pg WP OR R1.
  assert (K : (2 * (IZR o * ub * ua) <= r * (ua * ua + IZR o * (ub * ub)))%R).
  { generalize dependent (IZR o). intros o' OR.
    assert (SQ : (0 <= (r * ub - ua) * (r * ub - ua))%R) by apply Rle_0_sqr.
    assert (o' * (2 * (r * ub * ua)) <= o' * (r * r * (ub * ub) + ua * ua))%R by (apply Rmult_le_compat_l; lra).
    assert (o' * (ua * ua) <= r * r * (ua * ua))%R by (apply Rmult_le_compat_r; nra).
    apply (Rmult_le_reg_l r); [lra|]. lra. }
  assert (0 <= weight a * g)%R by nra.
  replace (weight a * (g * IZR o * ub * ua))%R with (weight a * g * (IZR o * ub * ua))%R by ring.
  replace (g * (r / 2 * (weight a * (ua * ua) + weight a * IZR o * (ub * ub))))%R with (weight a * g * (r * (ua * ua + IZR o * (ub * ub)) / 2))%R by field.
  apply Rmult_le_compat_l; lra.
Qed.

Lemma outer_first : forall n h, 0 <= n -> In h ops ->
  (Rsum (map (fun p => mass u (fst p, yy h (snd p))) (outer m ae (n + 1) (above (n + 1)) h)) <= level u (n + 1))%R.
Proof.
  intros n h Hn Hh. rewrite <- (map_map (fun p => (fst p, yy h (snd p))) (mass u)). apply Rsum_incl.
  - apply NoDup_map_inj.
    + intros [a x] [b y] _ _ E. cbn [fst snd] in E. assert (E1 : a = b) by congruence. assert (E2 : yy h x = yy h y) by congruence. unfold yy in E2. rewrite E1. f_equal. lia.
    + apply NoDup_filter. apply (NoDup_pairs m ae G (n + 1)); [apply NoDup_filter; exact ND|apply above_spec; lia|exact Hh].
  - intros p Hp. apply in_map_iff in Hp. destruct Hp as [[a x] [<- Hp]]. destruct (outer_in n h a x Hn Hh Hp) as [_ [Sa [Ta [Hx _]]]].
    apply In_grid; [lia|]. cbn [fst snd]. split; [exact Sa|]. split; [exact Ta|]. apply In_ds; [exact Sa|]. eauto.
  - intros. apply mass_ge0.
Qed.

Lemma outer_second : forall n h, 0 <= n -> In h ops ->
  (Rsum (map (fun p => mass u (img h p)) (outer m ae (n + 1) (above (n + 1)) h)) <= level u n)%R.
Proof.
  intros n h Hn Hh. destruct (op_adjoint m e Hherm h Hh) as [h' [Hh' [A _]]]. pose proof A as [A1 [A2 [A3 A4]]].
  rewrite <- (map_map (img h) (mass u)). apply Rsum_incl.
  - apply NoDup_map_inj.
    + intros [a x] [b y] Ha Hb E. destruct (outer_in n h a x Hn Hh Ha) as [_ [Sa [Ta [Hx Tx]]]]. destruct (outer_in n h b y Hn Hh Hb) as [_ [Sb [Tb [Hy Ty]]]].
      unfold img in E. cbn [fst snd] in E. rewrite Tx, Ty in E. destruct (Z.eqb_spec n 0) as [N0|N0].
      * destruct (step_vacuum m ae G a h x Sa Hh Hx ltac:(lia)) as [_ [-> [-> _]]]. destruct (step_vacuum m ae G b h y Sb Hh Hy ltac:(lia)) as [_ [-> [-> _]]]. reflexivity.
      * destruct (step_back m ae G a h h' x Sa Hh Hh' A Hx ltac:(lia)) as [_ [_ [Ea _]]]. destruct (step_back m ae G b h h' y Sb Hh Hh' A Hy ltac:(lia)) as [_ [_ [Eb _]]].
        pose proof (f_equal fst E) as E1. pose proof (f_equal snd E) as E2. cbn [fst snd] in E1, E2. assert (E3 : x - snd (next a h x) = y - snd (next b h y)) by lia. rewrite E1, E3, Eb in Ea. pose proof (f_equal fst Ea) as E5. pose proof (f_equal snd Ea) as E6. cbn [fst snd] in E5, E6. rewrite E5. f_equal. lia.
    + apply NoDup_filter. apply (NoDup_pairs m ae G (n + 1)); [apply NoDup_filter; exact ND|apply above_spec; lia|exact Hh].
  - intros p Hp. apply in_map_iff in Hp. destruct Hp as [[a x] [<- Hp]]. destruct (outer_in n h a x Hn Hh Hp) as [_ [Sa [Ta [Hx Tx]]]].
    unfold img. cbn [fst snd]. rewrite Tx. destruct (Z.eqb_spec n 0) as [N0|N0]; [unfold grid; rewrite (proj2 (Z.eqb_eq n 0) N0); left; reflexivity|].
    destruct (step_back m ae G a h h' x Sa Hh Hh' A Hx ltac:(lia)) as [Sb [Hx' _]]. apply In_grid; [lia|]. cbn [fst snd]. split; [exact Sb|]. split; [exact Tx|].
    apply In_ds; [exact Sb|]. exists h', (x - snd (next a h x)). split; [exact Hh'|]. split; [exact Hx'|]. unfold yy. lia.
  - intros. apply mass_ge0.
Qed.

Lemma flux : forall n, 0 <= n ->
  (Im (@ksum CR (map (fun h => @ksum CR (map (Tm e u h) (outer m ae (n + 1) (above (n + 1)) h))) ops)) <= strength * (sqrt (IZR (n + 1)) / 2 * (level u (n + 1) + level u n)))%R.
Proof.
  intros n Hn. eapply Rle_trans; [apply Im_abs|]. eapply Rle_trans; [apply Rsum_abs|].
  set (X := (sqrt (IZR (n + 1)) / 2 * (level u (n + 1) + level u n))%R).
  assert (PX : (0 <= X)%R).
  { unfold X. pose proof (sqrt_pos (IZR (n + 1))). pose proof (level_ge0 u n). pose proof (level_ge0 u (n + 1)). apply Rmult_le_pos; lra. }
  assert (K : forall h, In h ops -> (Cabs (@ksum CR (map (Tm e u h) (outer m ae (n + 1) (above (n + 1)) h))) <= if annihilates h then Cabs (ev e (ht_coupling h)) * X else 0)%R).
  { intros h Hh. destruct (annihilates h) eqn:D.
    - eapply Rle_trans; [apply Rsum_abs|].
      eapply Rle_trans; [apply (Rsum_le _ (fun p => Cabs (ev e (ht_coupling h)) * (sqrt (IZR (n + 1)) / 2 * (mass u (fst p, yy h (snd p)) + mass u (img h p))))%R)|].
      + intros [a x] Hp. apply outer_term; assumption.
      + rewrite Rsum_scal. apply Rmult_le_compat_l; [apply Cabs_ge0|]. rewrite Rsum_scal, Rsum_add. unfold X. apply Rmult_le_compat_l.
        * pose proof (sqrt_pos (IZR (n + 1))). lra.
        * pose proof (outer_first n h Hn Hh). pose proof (outer_second n h Hn Hh). lra.
    - destruct (outer m ae (n + 1) (above (n + 1)) h) as [|[a x] l] eqn:E.
      + eapply Rle_trans; [apply Rsum_abs|]. cbn [map Rsum fold_right]. lra.
      + destruct (outer_in n h a x Hn Hh) as [D' _]; [rewrite E; left; reflexivity|congruence]. }
  eapply Rle_trans; [apply Rsum_le; exact K|]. unfold strength.
  clear K. induction ops as [|h o IH]; [unfold Rsum; cbn [map filter fold_right]; lra|]. rewrite Rsum_cons. cbn [filter]. destruct (annihilates h); [rewrite Rsum_cons|]; lra.
Qed.

(** Clouds with at most [n] phonons that satisfy their equations pass on what
    the vacuum absorbs. *)
Lemma lower_flux : forall n, 0 <= n ->
  (forall a, space m ae a -> 1 <= total a <= n -> row_ok m ae e u a) ->
  kadd (u (vac m, [0])) (ksum (map (gsummand e u (m_ntypes m)) (filter creation ops))) = k0 ->
  (eta * Cnorm2 (u (vac m, [0%Z])) <= strength * (sqrt (IZR (n + 1)) / 2 * (level u (n + 1)%Z + level u n)))%R.
Proof.
  intros n Hn Hr HV. eapply Rle_trans; [|apply (flux n Hn)].
  unfold ops. rewrite <- (total_outer m ae G e Hherm Hph u (n + 1) ltac:(lia) (above (n + 1)) (NoDup_filter _ ND) (above_spec (n + 1) ltac:(lia))).
  pose proof (energy m ae G e eta Hherm Hph u 1 ltac:(lia) cl ND Hcl eq_refl Pu z k0 HG0 HV) as E.
  assert (Z0 : Im (Cmul (Cconj (u (vac m, [0]))) (Cmul (z, eta) (@k0 CR))) = 0%R) by (unfold Cmul, Cconj, Re, Im; cbn; ring). rewrite Z0 in E.
  assert (S : Im (total_Q m ae e u cl) = (Rsum (map (fun a => weight a * Im (Q m ae e u a))%R (filter (fun a => negb (n + 1 <=? total a)%Z) cl)) + Im (total_Q m ae e u (above (n + 1))))%R).
  { assert (EQ : forall l, Im (total_Q m ae e u l) = Rsum (map (fun a => weight a * Im (Q m ae e u a))%R l)).
    { intros l. unfold total_Q. rewrite Im_ksum. f_equal. apply map_ext. intros b. cbn. unfold Im, Re. cbn. ring. }
    rewrite !EQ. unfold above. clear. induction cl as [|a l IH]; [unfold Rsum; cbn [map filter fold_right]; lra|]. cbn [filter]. rewrite Rsum_cons, IH.
    destruct (n + 1 <=? total a); cbn [negb]; rewrite Rsum_cons; lra. }
  assert (L : (Rsum (map (fun a => weight a * Im (Q m ae e u a))%R (filter (fun a => negb (n + 1 <=? total a)%Z) cl)) <= 0)%R).
  { eapply Rle_trans; [apply (Rsum_le _ (fun _ => 0%R))|rewrite Rsum_0; lra]. intros a Ha. apply filter_In in Ha. destruct Ha as [Ha Ta].
    apply Hcl in Ha. destruct Ha as [Sa T1]. apply negb_true_iff, Z.leb_gt in Ta.
    pose proof (Q_sum m ae G e eta c Heta Hherm Hlat Hph Hg0 u a [] Sa (Hr a Sa ltac:(lia)) (NoDup_nil _) ltac:(intros d [])) as B. unfold Rsum in B. cbn [map fold_right] in B.
    pose proof (weight_pos a). nra. }
  lra.
Qed.

(** The norm of the solution. *)
Lemma norm_bound : forall K, conditions m ae e u (G0 e) -> (Rsum (map (fun k => level u (Z.of_nat k)) (seq 0 (S K))) <= 1 / eta * (1 / eta))%R.
Proof.
  intros K Cn. pose proof (passive_bound m ae G e eta c Heta Hherm Hlat Hph Hg0 z HG0 u Pu Cn) as PB. pose proof (bound_abs eta _ Heta PB) as AB.
  destruct Cn as [C1' C2'].
  pose proof (energy m ae G e eta Hherm Hph u 1 ltac:(lia) cl ND Hcl eq_refl Pu z (G0 e) HG0 C2') as E.
  assert (E1 : Cmul (z, eta) (G0 e) = C1) by (rewrite <- HG0; generalize (G0 e); change (car CR) with C; intros y; ring). rewrite E1 in E.
  set (all := flat_map (fun a => map (fun d => (a, d)) (ds a)) cl).
  assert (B : (Im (total_Q m ae e u cl) <= - eta * Rsum (map (mass u) all))%R).
  { unfold all. rewrite Rsum_flat. unfold total_Q. rewrite Im_ksum, <- Rsum_scal. apply Rsum_le. intros a Ha. apply Hcl in Ha. destruct Ha as [Sa Ta].
    pose proof (Q_sum m ae G e eta c Heta Hherm Hlat Hph Hg0 u a (ds a) Sa (fun d l R El => C1' a d l Sa R El) (NoDup_nodup _ _) (fun d => ds_reached a d Sa)) as B.
    rewrite map_map. unfold mass. cbn [fst snd]. rewrite Rsum_scal. cbn [kmul CR car]. replace (Im (Cmul (RtoC (weight a)) (Q m ae e u a))) with (weight a * Im (Q m ae e u a))%R by (unfold Cmul, RtoC, Re, Im; cbn; ring).
    pose proof (weight_pos a). nra. }
  assert (I : (Rsum (map (fun k => level u (Z.of_nat k)) (seq 1 K)) <= Rsum (map (mass u) all))%R).
  { unfold level. rewrite <- (Rsum_flat (fun k => grid (Z.of_nat k)) (mass u)). apply Rsum_incl; [|intros [a d] Hp|intros; apply mass_ge0].
    - apply NoDup_flat_map; [apply seq_NoDup|intros; apply NoDup_grid|]. intros x y p Hx Hy H1 H2. apply in_seq in Hx, Hy.
      apply In_grid in H1; [|lia]. apply In_grid in H2; [|lia]. lia.
    - apply in_flat_map in Hp. destruct Hp as [k [Hk Hp]]. apply in_seq in Hk. apply In_grid in Hp; [|lia]. cbn [fst snd] in Hp. destruct Hp as [Sa [Ta Hd]].
      unfold all. apply in_flat_map. exists a. split; [apply Hcl; split; [exact Sa|lia]|apply in_map; exact Hd]. }
  cbn [seq]. rewrite Rsum_cons. change (Z.of_nat 0) with 0%Z. rewrite level_0.
  set (g := u (vac m, [0])) in *. set (X := Rsum (map (fun k => level u (Z.of_nat k)) (seq 1 K))) in *. set (Y := Rsum (map (mass u) all)) in *.
  assert (IG : Im (Cmul (Cconj g) C1) = (- Im g)%R) by (unfold Cmul, Cconj, C1, Re, Im; cbn; ring). rewrite IG in E.
  pose proof (Im_abs (Copp g)) as IA. rewrite Cabs_opp in IA. assert (IO : Im (Copp g) = (- Im g)%R) by reflexivity. rewrite IO in IA.
  assert (F : (eta * (Cnorm2 g + X) <= 1 / eta)%R) by nra.
  apply (Rmult_le_reg_l eta); [exact Heta|]. replace (eta * (1 / eta * (1 / eta)))%R with (1 / eta)%R by (field; lra). exact F.
Qed.
End Flux.
End Cutoff.

(** * Two cutoffs *)
Section Two.
Context {T : Type}.
Variables m m' : model T.
Variables ae ae' : Z.
Hypothesis G : good_model m ae.
Hypothesis G' : good_model m' ae'.
Hypothesis Hham : m_ham m = m_ham m'.
Hypothesis Hnt : m_ntypes m = m_ntypes m'.
Variable K : nat.
Hypothesis Hsp : forall a, total a <= Z.of_nat K + 1 -> (space m ae a <-> space m' ae' a).
Let ops := h_terms (m_ham m).

Lemma ops_same : h_terms (m_ham m') = ops.
Proof. unfold ops. rewrite Hham. reflexivity. Qed.

Lemma vac_same : vac m' = vac m.
Proof. unfold vac. rewrite Hnt. reflexivity. Qed.

Lemma acts_same : forall a h x, In h ops -> space m ae a -> total a <= Z.of_nat K -> (acts_at m ae a h [x] <-> acts_at m' ae' a h [x]).
Proof.
  intros a h x Hh Sa Ta. assert (Sa' : space m' ae' a) by (apply Hsp; [lia|exact Sa]). assert (Hh' : In h (h_terms (m_ham m'))) by (rewrite ops_same; exact Hh).
  split; intros Hx; pose proof Hx as [L A]; (split; [exact L|]).
  - destruct (ht_dag h) eqn:D; [|exact A]. destruct (next_spec m ae G a h x Sa Hh Hx) as [V [M [Tn S]]]. unfold sgn in M, Tn. rewrite D in M, Tn.
    exists (fst (next a h x)), [snd (next a h x)]. split; [exact V|]. split; [exact M|]. apply Hsp; [lia|]. destruct S as [F|S]; [|exact S].
    exfalso. destruct (space_unfold m ae a Sa) as [_ [_ [P _]]]. assert (TP : 0 < total (fst (next a h x))) by lia. exact (pos_not_free _ V TP F).
  - destruct (ht_dag h) eqn:D; [|exact A]. destruct (next_spec m' ae' G' a h x Sa' Hh' Hx) as [V [M [Tn S]]]. unfold sgn in M, Tn. rewrite D in M, Tn.
    exists (fst (next a h x)), [snd (next a h x)]. split; [exact V|]. split; [exact M|]. apply Hsp; [lia|]. destruct S as [F|S]; [|exact S].
    exfalso. destruct (space_unfold m ae a Sa) as [_ [_ [P _]]]. assert (TP : 0 < total (fst (next a h x))) by lia. exact (pos_not_free _ V TP F).
Qed.

Lemma st_same : forall a h, In h ops -> space m ae a -> total a <= Z.of_nat K -> Permutation (st m ae a h) (st m' ae' a h).
Proof.
  intros a h Hh Sa Ta. assert (Sa' : space m' ae' a) by (apply Hsp; [lia|exact Sa]). assert (Hh' : In h (h_terms (m_ham m'))) by (rewrite ops_same; exact Hh).
  destruct (st_spec m ae G a h Sa Hh) as [N1 S1]. destruct (st_spec m' ae' G' a h Sa' Hh') as [N2 S2]. apply NoDup_Permutation; [exact N1|exact N2|].
  intros x. rewrite S1, S2. apply acts_same; assumption.
Qed.

Lemma reached_same : forall a d, space m ae a -> total a < Z.of_nat K -> reached m ae a d -> reached m' ae' a d.
Proof.
  intros a d Sa Ta [[h [Hh [D [Ea Ed]]]]|[b [h [x [s [Sb [Hh [Hx [M Ed]]]]]]]]].
  - left. exists h. rewrite ops_same, <- Hnt. auto.
  - right. exists b, h, x, s. destruct (space_unfold m ae b Sb) as [Vb [_ [_ [_ [N1 _]]]]]. destruct (space_unfold m ae a Sa) as [Va _].
    assert (TT : total a = total b + sgn h).
    { apply (modified_total b a [s] (ht_index h) [x] (sgn h)); [apply valid_wf; exact Vb|apply valid_wf; exact Va|pose proof (valid_rank b Vb); lia|exact M|rewrite N1; reflexivity]. }
    assert (Tb : total b <= Z.of_nat K) by (unfold sgn in TT; destruct (ht_dag h); lia).
    split; [apply Hsp; [lia|exact Sb]|]. split; [rewrite ops_same; exact Hh|]. split; [apply acts_same; assumption|]. auto.
Qed.

Variable e : env T CR.
Variable eta : R.
Variable c : Z.
Hypothesis Heta : (0 < eta)%R.
Hypothesis Hherm : hermitian e m.
Hypothesis Hlat : on_lattice m c.
Hypothesis Hph : forall d, ph e [- d] = Cconj (ph e [d]).
Hypothesis Hunit : forall d, Cabs (ph e [d]) = 1%R.
Hypothesis Hg0 : forall l, exists w t, (forall d : Z, Cadd (Cmul (w, eta) (g0 e [2 * d] l)) (Cmul (RtoC t) (Cadd (g0 e [2 * (d + 1)] l) (g0 e [2 * (d - 1)] l)))
   = if Z.eq_dec d 0 then C1 else C0) /\ vanishes (fun d => g0 e [2 * d] l).
Variable z : R.
Hypothesis HG0 : Cmul (G0 e) (z, eta) = C1.

Lemma herm_same : hermitian e m'.
Proof. unfold hermitian. rewrite <- Hham. exact Hherm. Qed.
Lemma lat_same : on_lattice m' c.
Proof. unfold on_lattice. rewrite <- Hham. exact Hlat. Qed.

(** The difference of two solutions. *)
Definition diff (u v : nd * list Z -> CR) : nd * list Z -> CR := fun p => Csub (u p) (v p).

Lemma ksum_diff : forall {A} (f g h : A -> CR) l, (forall x, In x l -> h x = Csub (f x) (g x)) -> @ksum CR (map h l) = Csub (@ksum CR (map f l)) (@ksum CR (map g l)).
Proof.
  intros A f g h l H. induction l as [|x l IH]; [apply Ceq; cbn; lra|]. cbn [map]. rewrite !ksum_cons, IH by (intros; apply H; right; assumption).
  rewrite (H x (or_introl eq_refl)). cbn [kadd CR car]. ring.
Qed.

Lemma jump_diff : forall u v p y, jump e (diff u v) p y = Csub (jump e u p y) (jump e v p y).
Proof. intros u v p y. unfold jump, diff. destruct (total (fst p) =? 0); cbn [kmul CR car]; ring. Qed.

Lemma row_diff : forall u v a, row_ok m ae e u a -> row_ok m ae e v a -> row_ok m ae e (diff u v) a.
Proof.
  intros u v a Hu Hv d l R El. specialize (Hu d l R El). specialize (Hv d l R El).
  rewrite (ksum_diff (fun h => ksum (map (summand e u l a d h) (st m ae a h))) (fun h => ksum (map (summand e v l a d h) (st m ae a h)))).
  - unfold diff at 1. cbn [kadd CR car] in *. transitivity (Csub (@k0 CR) (@k0 CR)); [|apply Ceq; cbn; lra]. rewrite <- Hu at 1. rewrite <- Hv. ring.
  - intros h _. apply ksum_diff. intros x _. unfold summand. rewrite jump_diff. cbn [kmul CR car]. ring.
Qed.

Lemma vac_diff : forall u v g, kadd (u (vac m, [0])) (ksum (map (gsummand e u (m_ntypes m)) (filter creation ops))) = g ->
  kadd (v (vac m, [0])) (ksum (map (gsummand e v (m_ntypes m)) (filter creation ops))) = g ->
  kadd (diff u v (vac m, [0])) (ksum (map (gsummand e (diff u v) (m_ntypes m)) (filter creation ops))) = k0.
Proof.
  intros u v g Hu Hv. rewrite (ksum_diff (gsummand e u (m_ntypes m)) (gsummand e v (m_ntypes m))).
  - unfold diff at 1. cbn [kadd CR car] in *. transitivity (Csub g g); [|apply Ceq; cbn; lra]. rewrite <- Hu at 1. rewrite <- Hv. ring.
  - intros h _. unfold gsummand, diff. cbn [kmul CR car]. ring.
Qed.

Lemma row_other : forall v a, conditions m' ae' e v (G0 e) -> space m ae a -> total a < Z.of_nat K -> row_ok m ae e v a.
Proof.
  intros v a [H _] Sa Ta d l R El. rewrite <- (H a d l); [|apply Hsp; [lia|exact Sa]|apply reached_same; assumption|rewrite <- Hham; exact El].
  rewrite ops_same. f_equal. apply ksum_ext. intros h Hh. apply ksum_perm, Permutation_map, st_same; [exact Hh|exact Sa|lia].
Qed.

Lemma ds_same : forall a d, space m ae a -> total a <= Z.of_nat K -> In d (ds m ae a) -> In d (ds m' ae' a).
Proof.
  intros a d Sa Ta H. assert (Sa' : space m' ae' a) by (apply Hsp; [lia|exact Sa]). apply (In_ds m ae G a d Sa) in H. destruct H as [h [x [Hh [Hx ->]]]].
  apply (In_ds m' ae' G' a _ Sa'). exists h, x. split; [rewrite ops_same; exact Hh|]. split; [apply acts_same; assumption|reflexivity].
Qed.

Lemma sq_diff : forall x y : C, (Cnorm2 (Csub x y) <= 2 * Cnorm2 x + 2 * Cnorm2 y)%R.
Proof.
  intros [a b] [p q]. unfold Cnorm2, Csub, Cadd, Copp, Re, Im. cbn. pose proof (Rle_0_sqr (a + p)) as S1. pose proof (Rle_0_sqr (b + q)) as S2. unfold Rsqr in *. lra.
Qed.

Lemma cutoff_error : forall u v, proper u -> proper v -> conditions m ae e u (G0 e) -> conditions m' ae' e v (G0 e) ->
  (eta * eta * eta * sqrt (INR K) * Cnorm2 (Csub (u (vac m, [0%Z])) (v (vac m, [0%Z]))) <= 4 * strength m e)%R.
Proof.
  intros u v Pu Pv Cu Cv. set (w := diff u v).
  assert (Pw : proper w) by (intros a a' d V V' F F'; unfold w, diff; rewrite (Pu a a' d V V' F F'), (Pv a a' d V V' F F'); reflexivity).
  destruct (clouds_from m ae 1 G ltac:(lia)) as [cl [ND Hcl]]. destruct (clouds_from m' ae' 1 G' ltac:(lia)) as [cl' [ND' Hcl']].
  set (lv := fun k : nat => level m ae cl w (Z.of_nat k)).
  assert (L0 : lv 0%nat = Cnorm2 (Csub (u (vac m, [0])) (v (vac m, [0])))) by exact (level_0 m ae cl w).
  assert (LP : forall k, (0 <= lv k)%R) by (intros; apply level_ge0).
  assert (F : forall n, (n < K)%nat -> (eta * lv 0%nat <= strength m e * (sqrt (INR K) / 2 * (lv (S n) + lv n)))%R).
  { intros n Hn. rewrite L0. eapply Rle_trans; [apply (lower_flux m ae G e eta c Heta Hherm Hlat Hph Hunit Hg0 z HG0 cl ND Hcl w Pw (Z.of_nat n) ltac:(lia))|].
    - intros a Sa Ta. apply row_diff; [intros d l R El; exact (proj1 Cu a d l Sa R El)|apply row_other; [exact Cv|exact Sa|lia]].
    - apply (vac_diff u v (G0 e)); [exact (proj2 Cu)|]. pose proof (proj2 Cv) as H. rewrite ops_same, vac_same, <- Hnt in H. exact H.
    - apply Rmult_le_compat_l; [apply strength_ge0|]. replace (Z.of_nat n + 1) with (Z.of_nat (S n)) by lia. apply Rmult_le_compat_r; [pose proof (LP (S n)); pose proof (LP n); unfold lv in *; lra|].
      enough (sqrt (IZR (Z.of_nat (S n))) <= sqrt (INR K))%R by lra. apply sqrt_le_1_alt. rewrite <- INR_IZR_INZ. apply le_INR. lia. }
  assert (B : (Rsum (map lv (seq 0 (S K))) <= 4 * (1 / eta * (1 / eta)))%R).
  { pose proof (norm_bound m ae G e eta c Heta Hherm Hlat Hph Hunit Hg0 z HG0 cl ND Hcl u Pu K Cu) as B1.
    pose proof (norm_bound m' ae' G' e eta c Heta herm_same lat_same Hph Hunit Hg0 z HG0 cl' ND' Hcl' v Pv K Cv) as B2.
    enough (E : (Rsum (map lv (seq 0 (S K))) <= 2 * Rsum (map (fun k => level m ae cl u (Z.of_nat k)) (seq 0 (S K))) + 2 * Rsum (map (fun k => level m' ae' cl' v (Z.of_nat k)) (seq 0 (S K))))%R) by lra.
    rewrite <- !Rsum_scal, <- Rsum_add. apply Rsum_le. intros k Hk. apply in_seq in Hk.
    assert (E1 : (lv k <= 2 * level m ae cl u (Z.of_nat k) + 2 * level m ae cl v (Z.of_nat k))%R).
    { unfold lv, level. rewrite <- !Rsum_scal, <- Rsum_add. apply Rsum_le. intros p _. unfold mass, w, diff. pose proof (sq_diff (u (fst p, [snd p])) (v (fst p, [snd p]))). pose proof (weight_pos (fst p)). nra. }
    assert (E2 : (level m ae cl v (Z.of_nat k) <= level m' ae' cl' v (Z.of_nat k))%R).
    { unfold level. apply Rsum_incl; [apply NoDup_grid; exact ND| |intros; apply mass_ge0]. intros p Hp. destruct k as [|k].
      - change (Z.of_nat 0) with 0 in *. unfold grid in *. cbn [Z.eqb] in *. rewrite vac_same. exact Hp.
      - apply (In_grid m ae e Hph Hunit cl Hcl) in Hp; [|lia]. destruct Hp as [Sa [Ta Hd]]. apply (In_grid m' ae' e Hph Hunit cl' Hcl'); [lia|]. split; [apply Hsp; [lia|exact Sa]|]. split; [exact Ta|].
        apply ds_same; [exact Sa|lia|exact Hd]. }
    lra. }
  assert (S : forall j, (j <= K)%nat -> (INR j * (eta * lv 0%nat) <= strength m e * (sqrt (INR K) * Rsum (map lv (seq 0 (S j)))))%R).
  { assert (SJ : forall j, (j <= K)%nat -> (INR j * (eta * lv 0%nat) <= strength m e * (sqrt (INR K) / 2 * (2 * Rsum (map lv (seq 0 (S j))) - lv 0%nat - lv j)))%R).
    { induction j as [|j IH]; intros Hj.
      - cbn [seq]. rewrite Rsum_cons. unfold Rsum. cbn [map fold_right INR]. lra.
      - specialize (IH ltac:(lia)). specialize (F j ltac:(lia)). rewrite S_INR. rewrite (seq_S (S j) 0), Rsum_app, Rsum_cons. cbn [Nat.add]. unfold Rsum at 2. cbn [map fold_right].
        nra. }
    intros j Hj. eapply Rle_trans; [apply SJ; exact Hj|]. apply Rmult_le_compat_l; [apply strength_ge0|]. pose proof (LP 0%nat). pose proof (LP j). pose proof (sqrt_pos (INR K)). nra. }
  specialize (S K (le_n K)). set (r := sqrt (INR K)) in *. assert (RR : INR K = (r * r)%R) by (unfold r; symmetry; apply sqrt_sqrt, pos_INR).
  rewrite RR in S. rewrite <- L0. set (X := lv 0%nat) in *. pose proof (strength_ge0 m e) as SP. set (st0 := strength m e) in *.
  assert (Rp : (0 <= r)%R) by apply sqrt_pos.
  assert (Q : (eta * (r * X) <= st0 * (4 * (1 / eta * (1 / eta))))%R).
  { destruct (Req_dec r 0) as [->|Nr].
    - rewrite Rmult_0_l, Rmult_0_r. apply Rmult_le_pos; [exact SP|]. assert (0 < 1 / eta)%R by (apply Rdiv_lt_0_compat; lra). nra.
    - assert (0 < r)%R by lra. eapply Rle_trans; [|apply Rmult_le_compat_l; [exact SP|exact B]]. apply (Rmult_le_reg_l r); [assumption|].
      replace (r * (eta * (r * X)))%R with (r * r * (eta * X))%R by ring. eapply Rle_trans; [exact S|]. apply Req_le. ring. }
  apply (Rmult_le_compat_l (eta * eta)) in Q; [|nra]. replace (eta * eta * (st0 * (4 * (1 / eta * (1 / eta)))))%R with (4 * st0)%R in Q by (field; lra).
  replace (eta * eta * eta * r * X)%R with (eta * eta * (eta * (r * X)))%R by ring. exact Q.
Qed.
End Two.

(** * Evaluation at a momentum and a frequency *)
Lemma strength_phys : forall (m : model R) k w eta, hermitian (phys_env m k w eta) m -> strength m (phys_env m k w eta) = Spec_self.strength m.
Proof.
  intros m k w eta [l [P F]]. unfold strength, Spec_self.strength. set (e := phys_env m k w eta) in *.
  set (f := fun h : hterm R => match ht_dag h with Plus => Rabs (ht_coupling h) | Minus => 0%R end).
  change (fold_right Rplus 0%R (map f (h_terms (m_ham m)))) with (Rsum (map f (h_terms (m_ham m)))).
  rewrite (Rsum_perm f _ _ P). clear P. induction F as [|h h' o l' A F IH]; [reflexivity|]. cbn [filter]. rewrite Rsum_cons, <- IH.
  destruct A as [_ [_ [D [_ [E _]]]]]. unfold f at 1, annihilates at 1. rewrite D. cbn [phys_env e ev] in E. unfold RtoC in E. injection E as E. rewrite E.
  destruct (ht_dag h); cbn [flip]; [lra|]. rewrite Rsum_cons. cbn [phys_env e ev]. rewrite Cabs_R. reflexivity.
Qed.

Lemma phys_same : forall (m m' : model R) k w eta, m_ham m = m_ham m' -> m_lattice m = m_lattice m' -> phys_env m' k w eta = phys_env m k w eta.
Proof. intros m m' k w eta H L. unfold phys_env. rewrite H, L. reflexivity. Qed.

Lemma numbers_clouds : forall {T} (m m' : model T) ae n, m_ntypes m = m_ntypes m' -> Spec_cutoff.same_extents m m' -> Spec_cutoff.numbers_agree m m' n ->
  forall a, total a <= n -> space m ae a -> space m' ae a.
Proof.
  intros T m m' ae n NT [Pe _] [Pn Mp] a Ta Sa. destruct (space_unfold m ae a Sa) as [V [NF [P [Nt [N1 [[z [Sh Hz]] [TT [L1 [L2 L3]]]]]]]]].
  apply space_intro; [exact V|exact NF|exists z; rewrite <- NT; split; [exact Sh|lia]| | |].
  - intros k Hk t x. destruct Mp as [E|[_ B]]; [apply L1; congruence|]. rewrite Hk in B. cbn in B. pose proof (occ_total a t x V). lia.
  - rewrite <- Pe, <- NT. exact L2.
  - intros t Ht. rewrite <- NT in Ht. specialize (L3 t Ht). destruct (Pn t Ht) as [E|[_ B]]; [lia|]. pose proof (type_total a t V ltac:(lia)). lia.
Qed.

Lemma agree_sym : forall {T} (m m' : model T) n, m_ntypes m = m_ntypes m' -> Spec_cutoff.numbers_agree m m' n -> Spec_cutoff.numbers_agree m' m n.
Proof.
  intros T m m' n NT [A B]. split.
  - intros t Ht. rewrite <- NT in Ht. destruct (A t Ht) as [E|[E F]]; [left; congruence|right; split; assumption].
  - destruct B as [E|[E F]]; [left; congruence|right; split; assumption].
Qed.

(** Sequences of complex numbers. *)
Lemma limit_ex : forall (g : nat -> C), (forall eps, 0 < eps -> exists N, forall n p, (N <= n)%nat -> (N <= p)%nat -> Cnorm2 (Csub (g n) (g p)) < eps)%R ->
  exists G : C, Un_cv (fun n => Re (g n)) (Re G) /\ Un_cv (fun n => Im (g n)) (Im G).
Proof.
  intros g H.
  assert (Cr : forall f : C -> R, (forall x y, Rsqr (f x - f y) <= Cnorm2 (Csub x y))%R -> Cauchy_crit (fun n => f (g n))).
  { intros f Hf eps He. destruct (H (eps * eps)%R ltac:(nra)) as [N HN]. exists N. intros n p Hn Hp. unfold R_dist.
    specialize (HN n p ltac:(lia) ltac:(lia)). specialize (Hf (g n) (g p)).
    assert (Q : (Rsqr (f (g n) - f (g p)) < Rsqr eps)%R) by (unfold Rsqr in *; lra).
    apply Rsqr_lt_abs_0 in Q. rewrite (Rabs_right eps) in Q by lra. exact Q. }
  assert (P1 : forall x y : C, (Rsqr (Re x - Re y) <= Cnorm2 (Csub x y))%R).
  { intros [a b] [p q]. pose proof (Rle_0_sqr (b - q)) as S. unfold Rsqr, Cnorm2, Csub, Cadd, Copp, Re, Im in *. cbn [fst snd]. lra. }
  assert (P2 : forall x y : C, (Rsqr (Im x - Im y) <= Cnorm2 (Csub x y))%R).
  { intros [a b] [p q]. pose proof (Rle_0_sqr (a - p)) as S. unfold Rsqr, Cnorm2, Csub, Cadd, Copp, Re, Im in *. cbn [fst snd]. lra. }
  destruct (R_complete (fun n => Re (g n)) (Cr Re P1)) as [a Ha].
  destruct (R_complete (fun n => Im (g n)) (Cr Im P2)) as [b Hb].
  exists (a, b). split; assumption.
Qed.

Lemma limit_le : forall (g : nat -> C) (G x : C) B K, Un_cv (fun n => Re (g n)) (Re G) -> Un_cv (fun n => Im (g n)) (Im G) ->
  (forall n, (K <= n)%nat -> Cnorm2 (Csub x (g n)) <= B)%R -> (Cnorm2 (Csub x G) <= B)%R.
Proof.
  intros g G x B K H1 H2 H.
  assert (SH : forall f l, Un_cv f l -> Un_cv (fun n => f (n + K)%nat) l).
  { intros f l Hf eps He. destruct (Hf eps He) as [N HN]. exists N. intros n Hn. apply HN. lia. }
  assert (CC : forall r, Un_cv (fun _ => r) r).
  { intros r eps He. exists 0%nat. intros n _. unfold R_dist. rewrite Rminus_diag_eq, Rabs_R0 by reflexivity. exact He. }
  apply (@Rle_cv_lim (fun n => Cnorm2 (Csub x (g (n + K)%nat))) (fun _ => B) _ _); [intros n; apply H; lia| |apply CC].
  assert (D1 : Un_cv (fun n => Re x - Re (g (n + K)%nat))%R (Re x - Re G)) by (apply (CV_minus (fun _ => Re x) (fun n => Re (g (n + K)%nat))); [apply CC|exact (SH _ _ H1)]).
  assert (D2 : Un_cv (fun n => Im x - Im (g (n + K)%nat))%R (Im x - Im G)) by (apply (CV_minus (fun _ => Im x) (fun n => Im (g (n + K)%nat))); [apply CC|exact (SH _ _ H2)]).
  pose proof (CV_plus _ _ _ _ (CV_mult _ _ _ _ D1 D1) (CV_mult _ _ _ _ D2 D2)) as D. exact D.
Qed.
