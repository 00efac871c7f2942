(** The energy identity of the equations of motion (C51-C53). *)
From Coq Require Import String ZArith Reals List Bool Lia Lra Permutation Ring.
From Verif Require Import Base NdArray NdArray_proofs Config Spec Spec_ops Config_proofs Modify_proofs Legal_proofs
  Model HModel Space Spec_space Space_proofs Count_proofs Render Render_proofs Term Equation System Spec_engine
  Term_proofs Equation_proofs System_proofs Prime_proofs Engine_proofs Ring Coef Cplx Physics Spec_eom Eom_proofs Solvers Spec_solve Sparse_proofs Spec_model
  Rows_proofs Spec_spectral Toeplitz_proofs Weight_proofs.
Import ListNotations.
Open Scope list_scope.
Open Scope Z_scope.

Lemma conj_mul : forall z w, Cconj (Cmul z w) = Cmul (Cconj z) (Cconj w).
Proof. intros [a b] [c d]. apply Ceq; unfold Cconj, Cmul, Re, Im; cbn; ring. Qed.
Lemma conj_add : forall z w, Cconj (Cadd z w) = Cadd (Cconj z) (Cconj w).
Proof. intros [a b] [c d]. apply Ceq; unfold Cconj, Cadd, Re, Im; cbn; ring. Qed.
Lemma conj_opp : forall z, Cconj (Copp z) = Copp (Cconj z).
Proof. intros [a b]. apply Ceq; unfold Cconj, Copp, Re, Im; cbn; ring. Qed.
Lemma conj_conj : forall z, Cconj (Cconj z) = z.
Proof. intros [a b]. apply Ceq; unfold Cconj, Re, Im; cbn; ring. Qed.
Lemma conj_R : forall x, Cconj (RtoC x) = RtoC x.
Proof. intros x. apply Ceq; unfold Cconj, RtoC, Re, Im; cbn; ring. Qed.

Lemma RtoC_mult : forall x y, RtoC (x * y) = Cmul (RtoC x) (RtoC y).
Proof. intros. apply Ceq; unfold Cmul, RtoC, Re, Im; cbn; ring. Qed.

Lemma kz_R : forall z, @kz CR z = RtoC (IZR z).
Proof.
  assert (P : forall p, Pos.iter (Cadd C1) C0 p = RtoC (IZR (Z.pos p))).
  { intros p. induction p as [|p IH] using Pos.peano_ind; [apply Ceq; cbn; lra|].
    rewrite Pos.iter_succ, IH. rewrite Pos2Z.inj_succ, succ_IZR. apply Ceq; unfold Cadd, C1, RtoC, Re, Im; cbn; ring. }
  intros [|p|p]; [reflexivity|exact (P p)|]. change (@kz CR (Z.neg p)) with (Copp (Pos.iter (Cadd C1) C0 p)). rewrite P.
  change (Z.neg p) with (- Z.pos p). rewrite opp_IZR. apply Ceq; unfold Copp, RtoC, Re, Im; cbn; ring.
Qed.

Lemma conj_sum : forall {A} (f : A -> CR) l, Cconj (@ksum CR (map f l)) = @ksum CR (map (fun x => Cconj (f x) : CR) l).
Proof.
  intros A f l. induction l as [|x l IH]; [apply Ceq; unfold Cconj; cbn; lra|]. cbn [map]. rewrite !ksum_cons, <- IH. exact (conj_add _ _).
Qed.

Lemma Im_ksum : forall {A} (f : A -> CR) l, Im (@ksum CR (map f l)) = Rsum (map (fun x => Im (f x)) l).
Proof. intros A f l. change (@ksum CR (map f l)) with (Csum (map f l)). rewrite Im_sum, map_map. reflexivity. Qed.

Lemma Rsum_le : forall {A} (f g : A -> R) l, (forall x, In x l -> f x <= g x)%R -> (Rsum (map f l) <= Rsum (map g l))%R.
Proof.
  intros A f g l H. induction l as [|x l IH]; cbn [map Rsum fold_right]; [lra|]. pose proof (H x (or_introl eq_refl)).
  fold (Rsum (map f l)). fold (Rsum (map g l)). pose proof (IH (fun y Hy => H y (or_intror Hy))). lra.
Qed.

Lemma Rsum_0 : forall {A} (l : list A), Rsum (map (fun _ => 0%R) l) = 0%R.
Proof. induction l as [|x l IH]; cbn [map Rsum fold_right]; [reflexivity|]. fold (Rsum (map (fun _ : A => 0%R) l)). lra. Qed.

Lemma Csum_flat : forall {A B} (f : A -> list B) (F : B -> CR) l, Csum (map F (flat_map f l)) = @ksum CR (map (fun x => @ksum CR (map F (f x))) l).
Proof. intros. exact (ksum_flat (K := CR) f F l). Qed.

Definition nd_eq_dec : forall a b : nd, {a = b} + {a <> b}.
Proof. decide equality; [apply (list_eq_dec Z.eq_dec)|apply (list_eq_dec Nat.eq_dec)]. Defined.

Section Energy.
Context {T : Type}.
Variable m : model T.
Variable ae : Z.
Hypothesis G : good_model m ae.
Let ops := h_terms (m_ham m).
Variable e : env T CR.
Variable eta : R.
Variable c : Z.
Hypothesis Heta : (0 < eta)%R.
Hypothesis Hherm : hermitian e m.
Hypothesis Hlat : on_lattice m c.
Hypothesis Hph : forall d, ph e [- d] = Cconj (ph e [d]).
Hypothesis Hg0 : forall l, exists w t, (forall d : Z, Cadd (Cmul (w, eta) (g0 e [2 * d] l)) (Cmul (RtoC t) (Cadd (g0 e [2 * (d + 1)] l) (g0 e [2 * (d - 1)] l)))
   = if Z.eq_dec d 0 then C1 else C0) /\ vanishes (fun d => g0 e [2 * d] l).

Definition yy (h : hterm T) (x : Z) : Z := phi1 h - psi1 h - 2 * x.
Variable u : nd * list Z -> CR.
Definition src_at (a : nd) (h : hterm T) (x : Z) : CR :=
  Copp (Cmul (Cmul (ev e (ht_coupling h)) (@kz CR (multi a h x))) (jump e u (next a h x) (phi1 h - 2 * x))).
Definition part (a : nd) (h : hterm T) (x : Z) : CR := Cmul (Cconj (src_at a h x)) (u (a, [yy h x])).
Definition Q (a : nd) : CR := @ksum CR (map (fun h => @ksum CR (map (part a h) (st m ae a h))) ops).

Lemma op_real : forall h, In h ops -> exists r, ev e (ht_coupling h) = RtoC r.
Proof.
  intros h Hh. destruct Hherm as [l [_ F]]. fold ops in F.
  assert (E : exists h', adjoint_op e h h') by (clear -F Hh; induction F; [destruct Hh|destruct Hh as [->|Hh]; eauto]).
  destruct E as [h' [_ [_ [_ [_ [_ E]]]]]]. exists (Re (ev e (ht_coupling h))). apply Ceq; [reflexivity|exact E].
Qed.

Lemma op_adjoint : forall h, In h ops -> exists h', In h' ops /\ adjoint_to h h' /\ ev e (ht_coupling h') = ev e (ht_coupling h).
Proof.
  intros h Hh. destruct Hherm as [l [P F]]. fold ops in F, P.
  assert (E : exists h', In h' l /\ adjoint_op e h h') by (clear -F Hh; induction F; [destruct Hh|destruct Hh as [->|Hh]; [eexists; split; [left; reflexivity|assumption]|destruct (IHF Hh) as [h' [? ?]]; exists h'; split; [right|]; assumption]]).
  destruct E as [h' [Hl [E1 [E2 [E3 [E4 [E5 _]]]]]]]. exists h'. split; [apply (Permutation_in _ (Permutation_sym P)); exact Hl|]. split; [repeat split; assumption|exact E5].
Qed.

Lemma yy_reached : forall a h x, space m ae a -> In h ops -> acts_at m ae a h [x] -> reached m ae a (yy h x).
Proof.
  intros a h x Sa Hh Hx. destruct (op_adjoint h Hh) as [h' [Hh' [A _]]]. pose proof A as [A1 [A2 [A3 A4]]].
  destruct (next_spec m ae G a h x Sa Hh Hx) as [Vb [_ [_ _]]].
  destruct (Z.eq_dec (total (fst (next a h x))) 0) as [Z0|Z0].
  - destruct (step_vacuum m ae G a h x Sa Hh Hx Z0) as [D [E [X _]]]. left. exists h'. split; [exact Hh'|].
    split; [rewrite A3, D; reflexivity|]. split; [rewrite A4; exact E|]. unfold yy. lia.
  - assert (P : 0 < total (fst (next a h x))).
    { apply valid_not_free_pos; [exact Vb|]. intros F. apply Z0. apply valid_total_free; assumption. }
    destruct (step_back m ae G a h h' x Sa Hh Hh' A Hx P) as [Sb [Hx' [E _]]]. right.
    exists (fst (next a h x)), h', (x - snd (next a h x)), (- snd (next a h x)). split; [exact Sb|]. split; [exact Hh'|]. split; [exact Hx'|].
    destruct (next_spec m ae G _ h' _ Sb Hh' Hx') as [_ [M _]]. rewrite E in M. cbn [fst snd] in M. split; [exact M|]. unfold yy. lia.
Qed.

Lemma yy_parity : forall h x, In h ops -> yy h x = 2 * ((yy h x - c) / 2) + c.
Proof.
  intros h x Hh. destruct (Hlat h Hh) as [[p Hp] [q Hq]]. unfold yy. replace (phi1 h - psi1 h - 2 * x - c) with ((q - p - x) * 2) by lia.
  rewrite Z.div_mul by lia. lia.
Qed.

Lemma reached_parity : forall a d, reached m ae a d -> d = 2 * ((d - c) / 2) + c.
Proof.
  intros a d [[h [Hh [_ [_ ->]]]]|[b [h [x [s [_ [Hh [_ [_ ->]]]]]]]]]; destruct (Hlat h Hh) as [_ [q Hq]].
  - rewrite Hq. rewrite (Z.mul_comm 2 q), Z.div_mul by lia. lia.
  - replace (phi1 h - 2 * x + 2 * s - c) with ((q - x + s) * 2) by lia. rewrite Z.div_mul by lia. lia.
Qed.

Definition srcs (a : nd) : list (C * Z) := flat_map (fun h => map (fun x => (src_at a h x, (yy h x - c) / 2)) (st m ae a h)) ops.

Lemma srcs_sum : forall a (F : C * Z -> C), Csum (map F (srcs a)) = @ksum CR (map (fun h => @ksum CR (map (fun x => F (src_at a h x, (yy h x - c) / 2) : CR) (st m ae a h))) ops).
Proof.
  intros a F. unfold srcs. etransitivity; [exact (Csum_flat (fun h => map (fun x => (src_at a h x, (yy h x - c) / 2)) (st m ae a h)) F ops)|].
  apply (ksum_ext (K := CR)). intros h _. f_equal. exact (map_map _ _ _).
Qed.

Definition row_ok (a : nd) : Prop := forall d l, reached m ae a d -> energy_of (h_freqs (m_ham m)) a l ->
  kadd (u (a, [d])) (ksum (map (fun h => ksum (map (summand e u l a d h) (st m ae a h))) ops)) = k0.

Lemma u_at : forall a l d, row_ok a -> energy_of (h_freqs (m_ham m)) a l -> reached m ae a d ->
  u (a, [d]) = U (fun n => g0 e [2 * n] l) (srcs a) ((d - c) / 2).
Proof.
  intros a l d Ra El R. pose proof (Ra d l R El) as H.
  assert (E : @ksum CR (map (fun h => @ksum CR (map (summand e u l a d h) (st m ae a h))) ops) = Copp (U (fun n => g0 e [2 * n] l) (srcs a) ((d - c) / 2))).
  { unfold U. rewrite (srcs_sum a (fun p => Cmul (fst p) (g0 e [2 * ((d - c) / 2 - snd p)] l))). change Copp with (@kopp CR).
    assert (NEG : forall {A} (f : A -> CR) l0, @kopp CR (ksum (map f l0)) = ksum (map (fun x => @kopp CR (f x)) l0)).
    { intros A f l0. induction l0 as [|z l0 IH]; [apply Ceq; cbn; lra|]. cbn [map]. rewrite !ksum_cons, <- IH. apply Ceq; cbn; unfold Copp, Cadd, Re, Im; cbn; lra. }
    rewrite NEG. apply ksum_ext. intros h Hh. rewrite NEG. apply ksum_ext. intros x _. cbn [fst snd].
    unfold summand, src_at.
    replace [2 * ((d - c) / 2 - (yy h x - c) / 2)] with [psi1 h - phi1 h + 2 * x + d].
    - cbn [kmul kopp CR car]. ring.
    - f_equal. pose proof (yy_parity h x Hh) as Y. pose proof (reached_parity a d R) as D. unfold yy in *. lia. }
  rewrite E in H. change (Cadd (u (a, [d])) (Copp (U (fun n : Z => g0 e [2 * n] l) (srcs a) ((d - c) / 2))) = C0) in H.
  set (v := U _ _ _) in *. clearbody v. change (u (a, [d]) = (v : C)). change (car CR) with C in *. generalize dependent (u (a, [d])). intros z H.
  change C in z. assert (E1 : z = Cadd (Cadd z (Copp v)) v) by ring. rewrite E1, H. ring.
Qed.

Lemma Q_sum : forall a ds, space m ae a -> row_ok a -> NoDup ds -> (forall d, In d ds -> reached m ae a d) ->
  (Im (Q a) <= - eta * Rsum (map (fun d => Cnorm2 (u (a, [d]))) ds))%R.
Proof.
  intros a ds Sa Ra ND R. destruct (space_unfold m ae a Sa) as [_ [_ [_ [NT _]]]].
  destruct (energy_ex (h_freqs (m_ham m)) a) as [l El]; [rewrite NT; apply (gm_freqs _ _ G)|].
  destruct (Hg0 l) as [w [t [Hres Hvan]]].
  assert (E : Im (Q a) = Rsum (map (fun p => Im (Cmul (Cconj (fst p)) (U (fun n => g0 e [2 * n] l) (srcs a) (snd p)))) (srcs a))).
  { rewrite <- (map_map (fun p => Cmul (Cconj (fst p)) (U (fun n => g0 e [2 * n] l) (srcs a) (snd p))) Im), <- Im_sum. f_equal.
    rewrite (srcs_sum a (fun p => Cmul (Cconj (fst p)) (U (fun n => g0 e [2 * n] l) (srcs a) (snd p)))). unfold Q.
    apply ksum_ext. intros h Hh. apply ksum_ext. intros x Hx. cbn [fst snd]. unfold part. f_equal.
    destruct (st_spec m ae G a h Sa Hh) as [_ S]. apply S in Hx. apply (u_at a l _ Ra El). apply yy_reached; assumption. }
  rewrite E. replace (map (fun d => Cnorm2 (u (a, [d]))) ds) with (map (fun n => Cnorm2 (U (fun n => g0 e [2 * n] l) (srcs a) n)) (map (fun d => (d - c) / 2) ds)).
  - apply (toeplitz_sum (fun n => g0 e [2 * n] l) w eta t Heta Hres Hvan (srcs a)). apply NoDup_map_inj; [|exact ND].
    intros d d' Hd Hd' X. rewrite (reached_parity a d (R d Hd)), (reached_parity a d' (R d' Hd')), X. reflexivity.
  - rewrite map_map. apply map_ext_in. intros d Hd. rewrite (u_at a l d Ra El (R d Hd)). reflexivity.
Qed.

(** * The sum over all clouds *)
Variable n0 : Z.
Hypothesis Hn0 : 1 <= n0.
Variable cl : list nd.
Hypothesis cl_nodup : NoDup cl.
Hypothesis cl_spec : forall a, In a cl <-> space m ae a /\ n0 <= total a.

Definition Tm (h : hterm T) (p : nd * Z) : CR := Cmul (RtoC (weight (fst p))) (part (fst p) h (snd p)).
Definition pairs (h : hterm T) : list (nd * Z) := flat_map (fun a => map (fun x => (a, x)) (st m ae a h)) cl.
Definition stays (h : hterm T) (p : nd * Z) : bool := n0 <=? total (fst (next (fst p) h (snd p))).
Definition inner (h : hterm T) : list (nd * Z) := filter (stays h) (pairs h).
Definition outer (h : hterm T) : list (nd * Z) := filter (fun p => negb (stays h p)) (pairs h).
Definition total_Q : CR := @ksum CR (map (fun a => @kmul CR (RtoC (weight a)) (Q a)) cl).

Lemma total_split : total_Q = Cadd (@ksum CR (map (fun h => @ksum CR (map (Tm h) (inner h))) ops)) (@ksum CR (map (fun h => @ksum CR (map (Tm h) (outer h))) ops)).
Proof.
  change Cadd with (@kadd CR). rewrite <- (ksum_add (K := CR)). unfold total_Q.
  transitivity (@ksum CR (map (fun a => @ksum CR (map (fun h => @ksum CR (map (fun x => Tm h (a, x)) (st m ae a h))) ops)) cl)).
  { apply ksum_ext. intros a _. unfold Q, Tm. cbn [fst snd]. change Cmul with (@kmul CR). rewrite <- (ksum_scal (K := CR)).
    apply ksum_ext. intros h _. rewrite <- (ksum_scal (K := CR)). reflexivity. }
  rewrite (ksum_swap (K := CR)). apply ksum_ext. intros h _.
  transitivity (@ksum CR (map (Tm h) (pairs h))).
  { unfold pairs. rewrite ksum_flat. apply ksum_ext. intros a _. rewrite map_map. reflexivity. }
  unfold inner, outer. induction (pairs h) as [|p l IH]; [apply Ceq; cbn; lra|]. cbn [map filter]. rewrite ksum_cons, IH.
  destruct (stays h p); cbn [negb map]; rewrite ksum_cons; cbn [kadd CR car]; ring.
Qed.

Lemma In_pairs : forall h p, In h ops -> (In p (pairs h) <-> space m ae (fst p) /\ n0 <= total (fst p) /\ acts_at m ae (fst p) h [snd p]).
Proof.
  intros h [a x] Hh. cbn [fst snd]. unfold pairs. rewrite in_flat_map. split.
  - intros [a' [Ha H]]. apply in_map_iff in H. destruct H as [x' [E H]]. injection E as -> ->. apply cl_spec in Ha. destruct Ha as [Sa Ta].
    destruct (st_spec m ae G a h Sa Hh) as [_ S]. apply S in H. auto.
  - intros [Sa [Ta H]]. exists a. split; [apply cl_spec; auto|]. apply in_map_iff. exists x. split; [reflexivity|]. apply (st_spec m ae G a h Sa Hh). exact H.
Qed.

Lemma NoDup_pairs : forall h, In h ops -> NoDup (pairs h).
Proof.
  intros h Hh. unfold pairs. apply NoDup_flat_map; [exact cl_nodup| |].
  - intros a Ha. apply cl_spec in Ha. apply NoDup_map_inj; [intros x y _ _ E; congruence|]. apply (st_spec m ae G a h (proj1 Ha) Hh).
  - intros a a' p _ _ H H'. apply in_map_iff in H, H'. destruct H as [x [<- _]], H' as [y [E _]]. congruence.
Qed.

Definition back (h : hterm T) (p : nd * Z) : nd * Z := (fst (next (fst p) h (snd p)), snd p - snd (next (fst p) h (snd p))).

Lemma back_ok : forall h h' p, In h ops -> In h' ops -> adjoint_to h h' -> In p (inner h) ->
  In (back h p) (inner h') /\ back h' (back h p) = p.
Proof.
  intros h h' [a x] Hh Hh' A Hp. unfold inner in *. apply filter_In in Hp. destruct Hp as [Hp St]. apply In_pairs in Hp; [|exact Hh]. cbn [fst snd] in *.
  destruct Hp as [Sa [Ta Hx]]. unfold stays in St. cbn [fst snd] in St. apply Z.leb_le in St.
  destruct (step_back m ae G a h h' x Sa Hh Hh' A Hx ltac:(lia)) as [Sb [Hx' [E _]]].
  unfold back. cbn [fst snd]. split.
  - apply filter_In. split; [apply In_pairs; [exact Hh'|]; cbn [fst snd]; auto|]. unfold stays. cbn [fst snd]. rewrite E. cbn [fst]. apply Z.leb_le. exact Ta.
  - rewrite E. cbn [fst snd]. f_equal. lia.
Qed.

Lemma back_perm : forall h h', In h ops -> In h' ops -> adjoint_to h h' -> Permutation (map (back h) (inner h)) (inner h').
Proof.
  intros h h' Hh Hh' A. apply NoDup_Permutation.
  - apply NoDup_map_inj; [|apply NoDup_filter, NoDup_pairs; exact Hh]. intros p q Hp Hq E.
    rewrite <- (proj2 (back_ok h h' p Hh Hh' A Hp)), <- (proj2 (back_ok h h' q Hh Hh' A Hq)), E. reflexivity.
  - apply NoDup_filter, NoDup_pairs; exact Hh'.
  - intros p. rewrite in_map_iff. split.
    + intros [q [<- Hq]]. apply (back_ok h h' q Hh Hh' A Hq).
    + intros Hp. exists (back h' p). destruct (back_ok h' h p Hh' Hh (adjoint_sym _ _ A) Hp) as [H1 H2]. auto.
Qed.

Lemma Tm_back : forall h h' p, In h ops -> In h' ops -> adjoint_to h h' -> ev e (ht_coupling h') = ev e (ht_coupling h) -> In p (inner h) ->
  Tm h' (back h p) = Cconj (Tm h p).
Proof.
  intros h h' [a x] Hh Hh' A EV Hp. unfold inner in *. apply filter_In in Hp. destruct Hp as [Hp St]. apply In_pairs in Hp; [|exact Hh]. cbn [fst snd] in *.
  destruct Hp as [Sa [Ta Hx]]. unfold stays in St. cbn [fst snd] in St. apply Z.leb_le in St.
  destruct (step_back m ae G a h h' x Sa Hh Hh' A Hx ltac:(lia)) as [Sb [Hx' [E WW]]].
  destruct (op_real h Hh) as [r Er]. pose proof A as [A1 [A2 [A3 A4]]].
  unfold Tm, back, part, src_at. cbn [fst snd]. rewrite E, EV, Er, !kz_R.
  destruct (next a h x) as [b s] eqn:EN. cbn [fst snd] in *. unfold jump. cbn [fst snd].
  destruct (Z.eqb_spec (total a) 0) as [Z0|_]; [lia|]. destruct (Z.eqb_spec (total b) 0) as [Z0|_]; [lia|].
  replace (yy h' (x - s)) with (phi1 h - 2 * x + 2 * s) by (unfold yy; lia).
  replace (phi1 h' - 2 * (x - s) + 2 * - s) with (yy h x) by (unfold yy; lia).
  replace (-2 * - s) with (- (-2 * s)) by lia. rewrite Hph. change (@kmul CR) with Cmul.
  change (car CR) with C. generalize (ph e [-2 * s]). generalize (u (a, [yy h x])). generalize (u (b, [phi1 h - 2 * x + 2 * s])).
  change (car CR) with C. intros ub ua P.
  rewrite !conj_mul, !conj_opp, !conj_mul, !conj_R, !conj_conj.
  transitivity (Cmul (RtoC (weight b * IZR (multi b h' (x - s)))) (Copp (Cmul (RtoC r) (Cmul P (Cmul (Cconj ua) ub))))).
  - rewrite RtoC_mult. ring.
  - rewrite WW, RtoC_mult. ring.
Qed.

Lemma inner_real : Im (@ksum CR (map (fun h => @ksum CR (map (Tm h) (inner h))) ops)) = 0%R.
Proof.
  set (S := @ksum CR (map (fun h => @ksum CR (map (Tm h) (inner h))) ops)).
  assert (E : S = Cconj S).
  { unfold S at 2. rewrite conj_sum. destruct Hherm as [l [P F]]. fold ops in P, F. unfold S.
    rewrite (ksum_perm (K := CR) _ _ (Permutation_map (fun h => @ksum CR (map (Tm h) (inner h))) P)). apply ksum_Forall2.
    assert (F' : Forall2 (fun h h' => In h ops /\ In h' ops /\ adjoint_op e h h') ops l).
    { assert (I2 : forall h, In h l -> In h ops) by (intros h; apply Permutation_in, Permutation_sym; exact P).
      assert (FF : forall o l0 : list (hterm T), Forall2 (adjoint_op e) o l0 -> (forall h, In h o -> In h ops) -> (forall h, In h l0 -> In h ops) ->
        Forall2 (fun h h' => In h ops /\ In h' ops /\ adjoint_op e h h') o l0).
      { intros o l0 F0. induction F0 as [|x y o l0 R F0 IH]; intros I1 I3; constructor; [simpl in *; auto|]. apply IH; intros; [apply I1|apply I3]; right; assumption. }
      apply FF; auto. }
    eapply Forall2_impl; [|exact F']. intros h h' [Hh [Hh' [A1 [A2 [A3 [A4 [A5 _]]]]]]].
    assert (A : adjoint_to h h') by (repeat split; assumption).
    rewrite conj_sum, <- (ksum_perm (K := CR) _ _ (Permutation_map (Tm h') (back_perm h h' Hh Hh' A))). rewrite map_map. apply ksum_ext.
    intros p Hp. apply Tm_back; assumption. }
  apply (f_equal Im) in E. unfold Cconj in E. cbn in E. unfold Im in *. cbn in E. lra.
Qed.

Lemma total_outer : Im total_Q = Im (@ksum CR (map (fun h => @ksum CR (map (Tm h) (outer h))) ops)).
Proof.
  rewrite total_split. pose proof inner_real as I. set (x := @ksum CR (map (fun h => @ksum CR (map (Tm h) (inner h))) ops)) in *.
  set (y := @ksum CR (map (fun h => @ksum CR (map (Tm h) (outer h))) ops)). change (Im x + Im y = Im y)%R. lra.
Qed.

(** The terms leading to the vacuum. *)
Definition green_part (h : hterm T) : CR := Cmul (Cmul (ev e (ht_coupling h)) (ph e [psi1 h - phi1 h])) (u (single_phonon (m_ntypes m) 1 (ht_index h), [phi1 h])).

Lemma outer_single : n0 = 1 -> forall h, In h ops -> outer h = if creation h then [] else [(single_phonon (m_ntypes m) 1 (ht_index h), 0)].
Proof.
  intros N1 h Hh. assert (N : NoDup (outer h)) by (apply NoDup_filter, NoDup_pairs; exact Hh).
    assert (I : forall p, In p (outer h) <-> creation h = false /\ p = (single_phonon (m_ntypes m) 1 (ht_index h), 0)).
    { intros [a x]. unfold outer. rewrite filter_In, (In_pairs h (a, x) Hh). unfold stays. cbn [fst snd]. split.
      - intros [[Sa [Ta Hx]] St]. apply negb_true_iff, Z.leb_gt in St. destruct (next_spec m ae G a h x Sa Hh Hx) as [Vb _].
        assert (NNb : 0 <= total (fst (next a h x))) by (apply total_nonneg; [apply valid_wf|apply valid_nonneg]; exact Vb).
        destruct (step_vacuum m ae G a h x Sa Hh Hx ltac:(lia)) as [D [-> [-> _]]]. unfold creation. rewrite D. auto.
      - intros [Cr E]. injection E as -> ->. assert (D : ht_dag h = Minus) by (unfold creation in Cr; destruct (ht_dag h); [discriminate|reflexivity]).
        destruct (single_step m ae G h Hh D) as [A T0]. pose proof (gm_index _ _ G h Hh) as Hi. destruct (single_in_space m ae G _ Hi) as [S1 T1].
        split; [split; [exact S1|split; [lia|exact A]]|]. rewrite T0, N1. reflexivity. }
    destruct (creation h).
    - destruct (outer h) as [|p r]; [reflexivity|]. destruct (proj1 (I p) (or_introl eq_refl)) as [X _]. discriminate.
    - destruct (outer h) as [|p [|q r]].
      + destruct (proj2 (I _) (conj eq_refl eq_refl)).
      + destruct (proj1 (I p) (or_introl eq_refl)) as [_ ->]. reflexivity.
      + exfalso. destruct (proj1 (I p) (or_introl eq_refl)) as [_ E1]. destruct (proj1 (I q) (or_intror (or_introl eq_refl))) as [_ E2].
        inversion N as [|? ? N2 _]; subst. apply N2. left. reflexivity.
Qed.

Lemma outer_vacuum : n0 = 1 -> proper u ->
  @ksum CR (map (fun h => @ksum CR (map (Tm h) (outer h))) ops) = Copp (Cmul (Cconj (u (vac m, [0]))) (@ksum CR (map green_part (filter creation ops)))).
Proof.
  intros N1 Pu. set (g := u (vac m, [0])).
  pose proof (outer_single N1) as O.
  set (f := fun h => if creation h then Copp (Cmul (Cconj g) (green_part h)) : CR else @k0 CR).
  transitivity (@ksum CR (map f ops)).
  - destruct Hherm as [l [P F]]. fold ops in P, F. rewrite (ksum_perm (K := CR) _ _ (Permutation_map f P)). symmetry. apply ksum_Forall2.
    assert (I1 : forall h, In h ops -> In h ops) by auto. revert I1. 
    assert (FF : forall o l0 : list (hterm T), Forall2 (adjoint_op e) o l0 -> (forall h, In h o -> In h ops) ->
        Forall2 (fun h h' => f h' = @ksum CR (map (Tm h) (outer h))) o l0).
    { intros o l0 F0. induction F0 as [|h h' o l0 R F0 IH]; intros I1; constructor; [|apply IH; intros; apply I1; right; assumption].
      clear IH. specialize (I1 h (or_introl eq_refl)). rename I1 into Hh. destruct R as [A1 [A2 [A3 [A4 [A5 _]]]]]. rewrite (O h Hh). unfold f, creation. rewrite A3.
      destruct (ht_dag h) eqn:D; cbn [flip map]; [reflexivity|].
      rewrite ksum_cons. destruct (single_step m ae G h Hh D) as [A T0]. pose proof (gm_index _ _ G h Hh) as Hi. destruct (single_in_space m ae G _ Hi) as [S1 T1].
      destruct (step_vacuum m ae G _ h 0 S1 Hh A T0) as [_ [_ [_ [Mu We]]]]. destruct (next_spec m ae G _ h 0 S1 Hh A) as [Vb _].
      destruct (op_real h Hh) as [r Er].
      unfold Tm, part, src_at, green_part. cbn [fst snd]. rewrite Mu, We, kz_R, A4, A5, Er. unfold jump. rewrite T0, Z.eqb_refl.
      destruct (vac_valid m) as [Vv [Tv _]].
      rewrite (Pu (fst (next (single_phonon (m_ntypes m) 1 (ht_index h)) h 0)) (vac m) [0] Vb Vv) by (apply valid_total_free; assumption). fold g.
      replace (psi1 h' - phi1 h') with (- phi1 h) by lia. rewrite Hph. replace (yy h 0) with (phi1 h') by (unfold yy; lia).
      replace (phi1 h - 2 * 0) with (phi1 h) by lia. change (@kmul CR) with Cmul. rewrite conj_opp, !conj_mul, !conj_R.
      change (@ksum CR []) with C0. change (@kadd CR) with Cadd. change (RtoC 1) with C1.
      generalize (u (single_phonon (m_ntypes m) 1 (ht_index h), [phi1 h'])). generalize (ph e [phi1 h]). change (car CR) with C. intros z1 z2. clearbody g. change C in g. ring. }
    intros I1. apply FF; assumption.
  - clear O. enough (FO : forall o, @ksum CR (map f o) = Copp (Cmul (Cconj g) (@ksum CR (map green_part (filter creation o))))) by apply FO.
    unfold f. induction o as [|h o IH].
    + apply Ceq; unfold Copp, Cmul, Cconj, C0, Re, Im; cbn; ring.
    + cbn [map filter]. rewrite ksum_cons, IH. destruct (creation h); cbn [map]; [rewrite ksum_cons|]; change (@kadd CR) with Cadd; change (@k0 CR) with C0;
        generalize (@ksum CR (map green_part (filter creation o))); change (car CR) with C; clearbody g; change C in g; intros X; ring.
Qed.

Lemma energy : n0 = 1 -> proper u -> forall z gb, Cmul (G0 e) (z, eta) = C1 -> kadd (u (vac m, [0])) (ksum (map (gsummand e u (m_ntypes m)) (filter creation ops))) = gb ->
  Im total_Q = (eta * Cnorm2 (u (vac m, [0%Z])) - Im (Cmul (Cconj (u (vac m, [0%Z]))) (Cmul (z, eta) gb)))%R.
Proof.
  intros N1 Pu z gb HG HE. rewrite total_outer, (outer_vacuum N1 Pu). set (X := @ksum CR (map green_part (filter creation ops))).
  assert (E : @ksum CR (map (gsummand e u (m_ntypes m)) (filter creation ops)) = Cmul (G0 e) X).
  { unfold X. change Cmul with (@kmul CR). rewrite <- (ksum_scal (K := CR)). apply ksum_ext. intros h _. unfold gsummand, green_part.
    change (@kz CR 1) with (Cadd C1 C0). cbn [kmul CR car]. ring. }
  rewrite E in HE. change (Cadd (u (vac m, [0])) (Cmul (G0 e) X) = gb) in HE.
  assert (XE : X = Csub (Cmul (z, eta) gb) (Cmul (z, eta) (u (vac m, [0])))).
  { rewrite <- HE. transitivity (Cmul (Cmul (G0 e) (z, eta)) X).
    - rewrite HG. generalize X. change (car CR) with C. intros Y. ring.
    - generalize X (G0 e) (u (vac m, [0])). change (car CR) with C. intros. ring. }
  rewrite XE. generalize (u (vac m, [0])) gb. change (car CR) with C. intros [a b] [p q]. unfold Copp, Cmul, Csub, Cconj, Cnorm2, Re, Im. cbn. ring.
Qed.

(** Clouds with at least [n0] phonons satisfy their equations. *)
Hypothesis Hrows : forall a d l, space m ae a -> n0 <= total a -> reached m ae a d -> energy_of (h_freqs (m_ham m)) a l ->
  kadd (u (a, [d])) (ksum (map (fun h => ksum (map (summand e u l a d h) (st m ae a h))) ops)) = k0.

Lemma row_from : forall a, space m ae a -> n0 <= total a -> row_ok a.
Proof. intros a Sa Ta d l R El. exact (Hrows a d l Sa Ta R El). Qed.

Lemma u_is : forall a l d, space m ae a -> n0 <= total a -> energy_of (h_freqs (m_ham m)) a l -> reached m ae a d ->
  u (a, [d]) = U (fun n => g0 e [2 * n] l) (srcs a) ((d - c) / 2).
Proof. intros a l d Sa Ta El R. apply u_at; [apply row_from| |]; assumption. Qed.

Lemma Q_bound : forall a d, space m ae a -> n0 <= total a -> reached m ae a d -> (Im (Q a) <= - eta * Cnorm2 (u (a, [d])))%R.
Proof.
  intros a d Sa Ta R. eapply Rle_trans; [apply (Q_sum a [d] Sa (row_from a Sa Ta)); [repeat constructor; intros []|intros d' [<-|[]]; exact R]|].
  cbn [map Rsum fold_right]. lra.
Qed.

Lemma Q_neg : forall a, space m ae a -> n0 <= total a -> (Im (Q a) <= 0)%R.
Proof.
  intros a Sa Ta.
  assert (D : (exists d, reached m ae a d) \/ Q a = C0).
  { destruct (flat_map (fun h => map (fun x => (h, x)) (st m ae a h)) ops) as [|[h x] r] eqn:E.
    - right. unfold Q. rewrite <- (ksum_flat (K := CR) (fun h => map (fun x => (h, x)) (st m ae a h)) (fun p => part a (fst p) (snd p)) ops) || idtac.
      transitivity (@ksum CR (map (fun p => part a (fst p) (snd p)) (flat_map (fun h => map (fun x => (h, x)) (st m ae a h)) ops))).
      + rewrite ksum_flat. apply ksum_ext. intros h _. rewrite map_map. reflexivity.
      + rewrite E. reflexivity.
    - left. assert (I : In (h, x) (flat_map (fun h => map (fun x => (h, x)) (st m ae a h)) ops)) by (rewrite E; left; reflexivity).
      apply in_flat_map in I. destruct I as [h0 [Hh I]]. apply in_map_iff in I. destruct I as [x0 [E0 Hx]]. injection E0 as -> ->.
      destruct (st_spec m ae G a h Sa Hh) as [_ S]. apply S in Hx. exists (yy h x). apply yy_reached; assumption. }
  destruct D as [[d R]|Z0]; [|rewrite Z0; cbn; lra]. pose proof (Q_bound a d Sa Ta R) as B.
  assert (0 <= Cnorm2 (u (a, [d])))%R by (unfold Cnorm2; pose proof (Rle_0_sqr (Re (u (a, [d])))); pose proof (Rle_0_sqr (Im (u (a, [d])))); unfold Rsqr in *; lra). nra.
Qed.

Lemma total_bound : forall a d, space m ae a -> n0 <= total a -> reached m ae a d -> (Im total_Q <= - (weight a * (eta * Cnorm2 (u (a, [d])))))%R.
Proof.
  intros a d Sa Ta R. assert (Ia : In a cl) by (apply cl_spec; auto).
  assert (E : Im total_Q = Rsum (map (fun b => weight b * Im (Q b))%R cl)).
  { unfold total_Q. rewrite Im_ksum. f_equal. apply map_ext. intros b. cbn. unfold Im, Re. cbn. ring. }
  assert (B : forall l, (forall b, In b l -> In b cl) -> In a l -> (Rsum (map (fun b => weight b * Im (Q b))%R l) <= - (weight a * (eta * Cnorm2 (u (a, [d])))))%R).
  { assert (NP : forall b, In b cl -> (weight b * Im (Q b) <= 0)%R).
    { intros b Hb. apply cl_spec in Hb. pose proof (Q_neg b (proj1 Hb) (proj2 Hb)). pose proof (weight_pos b). nra. }
    induction l as [|b l IH]; intros Hl Hi; [destruct Hi|]. cbn [map Rsum fold_right]. fold (Rsum (map (fun b => weight b * Im (Q b))%R l)).
    destruct (in_dec (fun x y => nd_eq_dec x y) a l) as [Y|N].
    - pose proof (IH (fun b' H => Hl b' (or_intror H)) Y). pose proof (NP b (Hl b (or_introl eq_refl))). lra.
    - destruct Hi as [->|Hi]; [|contradiction].
      assert (Rsum (map (fun b => weight b * Im (Q b))%R l) <= 0)%R.
      { rewrite <- (Rsum_0 l). apply Rsum_le. intros x Hx. apply NP, Hl. right. exact Hx. }
      pose proof (Q_bound a d Sa Ta R). pose proof (weight_pos a). nra. }
  rewrite E. apply B; auto.
Qed.

Lemma total_nonpos : (Im total_Q <= 0)%R.
Proof.
  assert (E : Im total_Q = Rsum (map (fun b => weight b * Im (Q b))%R cl)).
  { unfold total_Q. rewrite Im_ksum. f_equal. apply map_ext. intros b. cbn. unfold Im, Re. cbn. ring. }
  rewrite E, <- (Rsum_0 cl). apply Rsum_le. intros b Hb. apply cl_spec in Hb. pose proof (Q_neg b (proj1 Hb) (proj2 Hb)). pose proof (weight_pos b). nra.
Qed.

(** Without coupling to smaller clouds all unknowns vanish. *)
Lemma upper_zero : (forall h p, In h ops -> In p (outer h) -> jump e u (next (fst p) h (snd p)) (phi1 h - 2 * snd p) = C0) ->
  forall a d, space m ae a -> n0 <= total a -> reached m ae a d -> u (a, [d]) = C0.
Proof.
  intros Z0 a d Sa Ta R. pose proof (total_bound a d Sa Ta R) as B.
  assert (E : Im total_Q = 0%R).
  { rewrite total_outer. rewrite (ksum_zero (K := CR)); [reflexivity|]. intros h Hh. apply (ksum_zero (K := CR)). intros p Hp. unfold Tm, part, src_at.
    rewrite (Z0 h p Hh Hp). apply Ceq; unfold C0; cbn; unfold Cmul, Cconj, Copp, RtoC, Re, Im; cbn; ring. }
  rewrite E in B. pose proof (weight_pos a) as WP. apply Cnorm2_0.
  assert (NN : (0 <= Cnorm2 (u (a, [d])))%R) by (unfold Cnorm2; pose proof (Rle_0_sqr (Re (u (a, [d])))); pose proof (Rle_0_sqr (Im (u (a, [d])))); unfold Rsqr in *; lra).
  assert (0 < weight a * eta)%R by (apply Rmult_lt_0_compat; assumption). nra.
Qed.
End Energy.
