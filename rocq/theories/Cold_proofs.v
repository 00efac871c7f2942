(** Models made by the same calls at two temperatures, and the model whose
    prefactors are those of temperature zero (C73). *)
From Coq Require Import String ZArith Reals List Bool Lia Lra Permutation.
From Verif Require Import Base NdArray Config Spec Model HModel Space Spec_space Term Equation System Spec_engine
  Ring Coef Spec_eom Solvers Spec_solve Spec_model Spec_sym Cplx Physics Spec_spectral Spectral_proofs Cutoff_proofs Spec_perturb.
From Verif Require HModel_proofs Double_proofs Physics_proofs Rows_proofs Spec_exact.
Import ListNotations.
Open Scope list_scope.
Open Scope Z_scope.

(** The arithmetic of the reals with other functions for the hyperbolic ones;
    [Rnum] is [Rwith cosh sinh]. *)
Definition Rwith (co si : R -> R) : numops R :=
  mkNum R 0%R 1%R 2%R Rmult Rdiv Ropp Rabs (n_sqrt Rnum) exp Ratanh co si (n_eqb Rnum) (n_ltb Rnum).
Lemma Rwith_num : Rwith cosh sinh = Rnum.
Proof. reflexivity. Qed.
Definition Rcold : numops R := Rwith (fun _ => 1%R) (fun _ => 0%R).
Lemma Rwith_ok : forall co si, num_ok (Rwith co si).
Proof. intros co si. constructor; cbn [Rwith n_abs n_opp n_sqrt Rnum]; [intros; apply Rabs_Ropp|]. intros x e. destruct (Rlt_dec x 0); congruence. Qed.

(** * Operators of a coupling *)
Definition sketch : Type := (vec * vec * dagger * R)%type.
Definition term_of (ty : string) (i : nat) (f g : R) (q : sketch) : hterm R :=
  let '(psi, phi, d, s) := q in mkHterm ty psi phi d (s * g)%R i f.
Definition unsigned (q : sketch) : Prop := Rabs (snd q) = 1%R.

Lemma get_terms_sketch : forall dim ty, (forall co si g i f, get_terms (Rwith co si) dim ty g i f = None) \/
  exists tm, Forall unsigned tm /\ forall co si g i f, get_terms (Rwith co si) dim ty g i f = Some (map (term_of ty i f g) tm).
Proof.
  intros dim ty. set (z := ivec (repeat 0 dim)). set (iv := fun v => ivec [v]).
  assert (U1 : forall a b d, unsigned (a, b, d, 1%R)) by (intros; apply Rabs_R1).
  assert (U2 : forall a b d, unsigned (a, b, d, (-1)%R)) by (intros; unfold unsigned; cbn [snd]; rewrite Rabs_left; lra).
  unfold get_terms. cbn [Rwith n_opp]. destruct (String.eqb ty "Holstein").
  { right. exists [(z, z, Plus, (-1)%R); (z, z, Minus, (-1)%R)]. split; [repeat constructor; apply U2|]. intros. cbn [map term_of]. fold z. repeat f_equal; ring. }
  destruct (String.eqb ty "EdwardsFermionBoson").
  { right. exists [(iv 1, iv 1, Plus, 1%R); (iv (-1), iv (-1), Plus, 1%R); (iv 1, iv 0, Minus, 1%R); (iv (-1), iv 0, Minus, 1%R)].
    split; [repeat constructor; apply U1|]. intros. cbn [map term_of]. unfold iv. rewrite !Rmult_1_l. reflexivity. }
  destruct (String.eqb ty "BondPeierls").
  { right. exists [(iv 1, half, Plus, 1%R); (iv 1, half, Minus, 1%R); (iv (-1), mhalf, Plus, 1%R); (iv (-1), mhalf, Minus, 1%R)].
    split; [repeat constructor; apply U1|]. intros. cbn [map term_of]. unfold iv. rewrite !Rmult_1_l. reflexivity. }
  destruct (String.eqb ty "Peierls"); [|left; reflexivity].
  right. exists [(iv 1, iv 0, Plus, 1%R); (iv 1, iv 0, Minus, 1%R); (iv 1, iv 1, Plus, (-1)%R); (iv 1, iv 1, Minus, (-1)%R);
    (iv (-1), iv (-1), Plus, 1%R); (iv (-1), iv (-1), Minus, 1%R); (iv (-1), iv 0, Plus, (-1)%R); (iv (-1), iv 0, Minus, (-1)%R)].
  split; [repeat constructor; first [apply U1|apply U2]|]. intros. cbn [map term_of]. unfold iv. rewrite !Rmult_1_l. repeat f_equal; ring.
Qed.

(** * Successful calls *)
Definition strength (N : numops R) (hop f : R) (a : add_args R) (g : R) : Prop :=
  (a_cs a = Some g /\ a_dcs a = None) \/ (a_cs a = None /\ exists lam, a_dcs a = Some lam /\ model_coupling_map N (a_type a) hop f lam = Ok g).
Lemma strength_det : forall co si co' si' hop f a g g', strength (Rwith co si) hop f a g -> strength (Rwith co' si') hop f a g' -> g' = g.
Proof.
  intros co si co' si' hop f a g g' [[E1 E2]|[E1 [lam [E2 E3]]]] [[E4 E5]|[E4 [lam' [E5 E6]]]]; try congruence.
  assert (lam' = lam) by congruence. subst. change (model_coupling_map (Rwith co' si') (a_type a) hop f lam) with (model_coupling_map (Rwith co si) (a_type a) hop f lam) in E6. congruence.
Qed.
Lemma strength_opp : forall co si hop f a g, strength (Rwith co si) hop f a g -> strength (Rwith co si) hop (- f)%R a g.
Proof.
  intros co si hop f a g [H|[E1 [lam [E2 E3]]]]; [left; exact H|right]. split; [exact E1|]. exists lam. split; [exact E2|].
  rewrite <- E3. unfold model_coupling_map. cbn [Rwith n_abs]. rewrite Rabs_Ropp. reflexivity.
Qed.
Definition with_f (fs : list R) (f : R) : list R := if existsb (n_eqb Rnum f) fs then fs else fs ++ [f].
Lemma make : forall co si h a idx f V g tm, strength (Rwith co si) (h_hop h) f a g -> 0 <= idx ->
  (forall co si g i f, get_terms (Rwith co si) (h_dim h) (a_type a) g i f = Some (map (term_of (a_type a) i f g) tm)) ->
  ham_add (Rwith co si) h (a_type a) idx f (a_cs a) (a_dcs a) V =
  Ok ([LDebug], mkHam (h_terms h ++ map (term_of (a_type a) (Z.to_nat idx) f (g * V)%R) tm) (with_f (h_freqs h) f) (h_dim h) (h_hop h)).
Proof.
  intros co si h a idx f V g tm S I E. unfold ham_add. cbv zeta.
  replace (match a_cs a with Some g0 => match a_dcs a with Some _ => Err ValueError | None => Ok g0 end
      | None => match a_dcs a with Some lam => model_coupling_map (Rwith co si) (a_type a) (h_hop h) f lam | None => Err ValueError end end) with (@Ok R g).
  - rewrite E. unfold guard. destruct (Z.leb_spec 0 idx); [|lia]. reflexivity.
  - destruct S as [[-> ->]|[-> [lam [-> G]]]]; [reflexivity|symmetry; exact G].
Qed.

(** What a call at a temperature makes of a model. *)
Definition after_hot (m : model R) (a : add_args R) (tm : list sketch) (g V Vt : R) (Mt Nt : Z) : model R :=
  let i := m_ntypes m in
  mkModel (m_lattice m) (m_temp m)
    (mkHam ((h_terms (m_ham m) ++ map (term_of (a_type a) i (a_freq a) (g * V)%R) tm) ++ map (term_of (a_type a) (S i) (- a_freq a)%R (g * Vt)%R) tm)
       (with_f (with_f (h_freqs (m_ham m)) (a_freq a)) (- a_freq a)%R) (h_dim (m_ham m)) (h_hop (m_ham m)))
    (m_mps m) ((m_pe m ++ [a_M a]) ++ [Mt]) ((m_pn m ++ [a_N a]) ++ [Nt]) (m_aext m) (S (S i)).

Section Calls.
Variable co si : R -> R.
Notation N := (Rwith co si).

Lemma hot_call : forall m a logs m1, (0 < m_temp m)%R -> a_override a = None -> model_add N m a = Ok (logs, m1) -> ~ In LError logs ->
  acceptable N m a /\ exists tm g Mt Nt, Forall unsigned tm /\ (forall co si g i f, get_terms (Rwith co si) (h_dim (m_ham m)) (a_type a) g i f = Some (map (term_of (a_type a) i f g) tm)) /\
    strength N (h_hop (m_ham m)) (a_freq a) a g /\ a_Mtfd a = Some Mt /\ a_Ntfd a = Some Nt /\
    m1 = after_hot m a tm g (fst (tfd_prefactors N (m_temp m) (a_freq a))) (snd (tfd_prefactors N (m_temp m) (a_freq a))) Mt Nt.
Proof.
  intros m a logs m1 HT Ov E L. destruct (HModel_proofs.acceptable_dec N m a) as [A|A].
  2:{ rewrite (HModel_proofs.add_rejects N m a A) in E. exfalso. apply L. assert (logs = [LError]) as -> by congruence. left. reflexivity. }
  split; [exact A|]. assert (hot : n_ltb N (n_0 N) (m_temp m) = true) by (cbn; destruct (Rlt_dec 0 (m_temp m)); [reflexivity|contradiction]).
  unfold model_add in E. cbv zeta in E. rewrite (HModel_proofs.add_passes N m a A) in E. rewrite hot, Ov in E.
  destruct (tfd_prefactors N (m_temp m) (a_freq a)) as [V Vt]. cbn [fst snd].
  destruct (ham_add N (m_ham m) (a_type a) (Z.of_nat (m_ntypes m)) (a_freq a) (a_cs a) (a_dcs a) V) as [[l1 h1]|] eqn:E1; [|discriminate]. cbn [bind] in E.
  destruct (ham_add N h1 (a_type a) (Z.of_nat (m_ntypes m) + 1) (n_opp N (a_freq a)) (a_cs a) (a_dcs a) Vt) as [[l2 h2]|] eqn:E2; [|discriminate]. cbn [bind] in E.
  destruct (a_Mtfd a) as [Mt|] eqn:EM; [|discriminate]. destruct (a_Ntfd a) as [Nt|] eqn:EN; [|discriminate]. cbn [m_pe m_pn m_ntypes] in E.
  match type of E with Ok (?x, ?y) = _ => assert (EL : x = logs) by congruence; assert (EY : y = m1) by congruence end.
  destruct (Double_proofs.ham_add_inv N _ _ _ _ _ _ _ _ _ E1) as [g [ts [Gv [Et _]]]]; [intros H; apply L; rewrite <- EL; apply in_or_app; right; apply in_or_app; left; exact H|].
  destruct (get_terms_sketch (h_dim (m_ham m)) (a_type a)) as [No|[tm [Un Tm]]]; [rewrite No in Et; discriminate|].
  exists tm, g, Mt, Nt. split; [exact Un|]. split; [exact Tm|]. assert (Sg : strength N (h_hop (m_ham m)) (a_freq a) a g) by exact Gv.
  split; [exact Sg|]. split; [reflexivity|]. split; [reflexivity|].
  rewrite (make co si (m_ham m) a _ _ V g tm Sg (Zle_0_nat (m_ntypes m)) Tm) in E1. assert (EH1 : mkHam (h_terms (m_ham m) ++ map (term_of (a_type a) (Z.to_nat (Z.of_nat (m_ntypes m))) (a_freq a) (g * V)) tm) (with_f (h_freqs (m_ham m)) (a_freq a)) (h_dim (m_ham m)) (h_hop (m_ham m)) = h1) by congruence.
  rewrite <- EH1 in E2. cbn [n_opp Rwith] in E2. match type of E2 with ham_add _ ?h _ _ _ _ _ _ = _ => rewrite (make co si h a (Z.of_nat (m_ntypes m) + 1) _ Vt g tm (strength_opp co si _ _ a g Sg) ltac:(lia) Tm) in E2 end.
  match type of E2 with Ok (_, ?h) = _ => assert (EH2 : h = h2) by congruence end. rewrite <- EH2 in EY. rewrite <- EY. unfold after_hot. cbn [h_terms h_freqs h_dim h_hop].
  rewrite Nat2Z.id. replace (Z.to_nat (Z.of_nat (m_ntypes m) + 1)) with (S (m_ntypes m)) by lia. reflexivity.
Qed.

Lemma hot_make : forall m a tm g Mt Nt, (0 < m_temp m)%R -> a_override a = None -> acceptable N m a ->
  (forall co si g i f, get_terms (Rwith co si) (h_dim (m_ham m)) (a_type a) g i f = Some (map (term_of (a_type a) i f g) tm)) ->
  strength N (h_hop (m_ham m)) (a_freq a) a g -> a_Mtfd a = Some Mt -> a_Ntfd a = Some Nt ->
  exists logs, model_add N m a = Ok (logs, after_hot m a tm g (fst (tfd_prefactors N (m_temp m) (a_freq a))) (snd (tfd_prefactors N (m_temp m) (a_freq a))) Mt Nt) /\ ~ In LError logs.
Proof.
  intros m a tm g Mt Nt HT Ov A Tm Sg EM EN.
  assert (hot : n_ltb N (n_0 N) (m_temp m) = true) by (cbn; destruct (Rlt_dec 0 (m_temp m)); [reflexivity|contradiction]).
  unfold model_add. cbv zeta. rewrite (HModel_proofs.add_passes N m a A). rewrite hot, Ov.
  destruct (tfd_prefactors N (m_temp m) (a_freq a)) as [V Vt]. cbn [fst snd].
  rewrite (make co si (m_ham m) a _ _ V g tm Sg (Zle_0_nat (m_ntypes m)) Tm). cbn [bind n_opp Rwith].
  match goal with |- context [ham_add (Rwith co si) ?h (a_type a) (Z.of_nat (m_ntypes m) + 1) ?f _ _ Vt] => rewrite (make co si h a (Z.of_nat (m_ntypes m) + 1) _ Vt g tm (strength_opp co si _ _ a g Sg) ltac:(lia) Tm) end.
  cbn [bind]. rewrite EM, EN. cbn [m_pe m_pn m_ntypes h_terms h_freqs h_dim h_hop]. eexists. split.
  - unfold after_hot. rewrite Nat2Z.id. replace (Z.to_nat (Z.of_nat (m_ntypes m) + 1)) with (S (m_ntypes m)) by lia. reflexivity.
  - rewrite !in_app_iff. intros [H|[[H|[]]|[H|[]]]]; try discriminate. destruct (n_eqb _ (m_temp m) _ && _); [destruct H as [H|[]]; discriminate|destruct H].
Qed.

Lemma cold_call : forall m a logs m1, (m_temp m <= 0)%R -> a_override a = None -> model_add N m a = Ok (logs, m1) -> ~ In LError logs ->
  forall tm, (forall co si g i f, get_terms (Rwith co si) (h_dim (m_ham m)) (a_type a) g i f = Some (map (term_of (a_type a) i f g) tm)) ->
  exists g, strength N (h_hop (m_ham m)) (a_freq a) a g /\
    m1 = mkModel (m_lattice m) (m_temp m) (mkHam (h_terms (m_ham m) ++ map (term_of (a_type a) (m_ntypes m) (a_freq a) (g * 1)%R) tm) (with_f (h_freqs (m_ham m)) (a_freq a)) (h_dim (m_ham m)) (h_hop (m_ham m)))
      (m_mps m) (m_pe m ++ [a_M a]) (m_pn m ++ [a_N a]) (m_aext m) (S (m_ntypes m)).
Proof.
  intros m a logs m1 HT Ov E L tm Tm. destruct (HModel_proofs.acceptable_dec N m a) as [A|A].
  2:{ rewrite (HModel_proofs.add_rejects N m a A) in E. exfalso. apply L. assert (logs = [LError]) as -> by congruence. left. reflexivity. }
  assert (cold : n_ltb N (n_0 N) (m_temp m) = false) by (cbn; destruct (Rlt_dec 0 (m_temp m)); [lra|reflexivity]).
  unfold model_add in E. cbv zeta in E. rewrite (HModel_proofs.add_passes N m a A) in E. rewrite cold, Ov in E. unfold tfd_prefactors in E. rewrite cold in E.
  destruct (ham_add N (m_ham m) (a_type a) (Z.of_nat (m_ntypes m)) (a_freq a) (a_cs a) (a_dcs a) (n_1 N)) as [[l1 h1]|] eqn:E1; [|discriminate]. cbn [bind] in E.
  match type of E with Ok (?x, ?y) = _ => assert (EL : x = logs) by congruence; assert (EY : y = m1) by congruence end.
  destruct (Double_proofs.ham_add_inv N _ _ _ _ _ _ _ _ _ E1) as [g [ts [Gv _]]]; [intros H; apply L; rewrite <- EL; apply in_or_app; right; exact H|].
  exists g. assert (Sg : strength N (h_hop (m_ham m)) (a_freq a) a g) by exact Gv. split; [exact Sg|].
  rewrite (make co si (m_ham m) a _ _ _ g tm Sg (Zle_0_nat (m_ntypes m)) Tm) in E1. match type of E1 with Ok (_, ?h) = _ => assert (EH : h = h1) by congruence end.
  rewrite <- EH in EY. rewrite <- EY. rewrite Nat2Z.id. reflexivity.
Qed.
End Calls.

(** * The same calls at two temperatures *)
Lemma sketch_change : forall ty i f g g' tm, Forall unsigned tm ->
  fold_right (fun p s => (Rabs (ht_coupling (fst p) - ht_coupling (snd p)) + s)%R) 0%R (combine (map (term_of ty i f g) tm) (map (term_of ty i f g') tm)) = (INR (List.length tm) * Rabs (g - g'))%R.
Proof.
  intros ty i f g g' tm U. induction U as [|[[[psi phi] d] s] tm H U IH]; [cbn [map combine fold_right List.length INR]; lra|].
  cbn [map combine fold_right List.length]. rewrite IH, S_INR. unfold unsigned in H. cbn [term_of fst snd ht_coupling] in *.
  rewrite <- Rmult_minus_distr_l, Rabs_mult, H. lra.
Qed.
Lemma sketch_sum : forall ty i f g tm, Forall unsigned tm ->
  fold_right (fun h s => (Rabs (ht_coupling h) + s)%R) 0%R (map (term_of ty i f g) tm) = (INR (List.length tm) * Rabs g)%R.
Proof.
  intros ty i f g tm U. induction U as [|[[[psi phi] d] s] tm H U IH]; [cbn [map fold_right List.length INR]; lra|].
  cbn [map fold_right List.length]. rewrite IH, S_INR. unfold unsigned in H. cbn [term_of fst snd ht_coupling] in *. rewrite Rabs_mult, H. lra.
Qed.
Lemma sketch_same : forall ty i f g g' tm, Forall2 same_place (map (term_of ty i f g) tm) (map (term_of ty i f g') tm).
Proof. intros ty i f g g' tm. induction tm as [|[[[psi phi] d] s] tm IH]; cbn [map]; constructor; [repeat split; reflexivity|exact IH]. Qed.
Lemma fold_sum_app : forall {A} (w : A -> R) l l', fold_right (fun x s => (w x + s)%R) 0%R (l ++ l') = (fold_right (fun x s => (w x + s)%R) 0%R l + fold_right (fun x s => (w x + s)%R) 0%R l')%R.
Proof. intros A w l l'. induction l as [|x l IH]; cbn [app fold_right]; [lra|]. rewrite IH. lra. Qed.
Lemma combine_app : forall {A B} (l : list A) (k : list B) l' k', List.length l = List.length k -> combine (l ++ l') (k ++ k') = combine l k ++ combine l' k'.
Proof. intros A B l. induction l as [|x l IH]; intros [|y k] l' k' H; try discriminate; [reflexivity|]. cbn [app combine]. rewrite IH by (cbn in H; lia). reflexivity. Qed.
Lemma Forall2_len : forall {A B} (P : A -> B -> Prop) l l', Forall2 P l l' -> List.length l = List.length l'.
Proof. intros A B P l l' H. induction H; cbn; congruence. Qed.

Record twin (m m' m0 : model R) (delta : R) : Prop := {
  tw_alike : alike m m';
  tw_freqs : h_freqs (m_ham m') = h_freqs (m_ham m);
  tw_dim : h_dim (m_ham m') = h_dim (m_ham m) /\ h_dim (m_ham m0) = h_dim (m_ham m);
  tw_hop : h_hop (m_ham m') = h_hop (m_ham m) /\ h_hop (m_ham m0) = h_hop (m_ham m);
  tw_change : (coupling_change m m' <= delta * Spec_exact.coupling_sum m0)%R }.

Section Twins.
Variable co si co' si' co0 si0 : R -> R.
Notation N := (Rwith co si).
Notation N' := (Rwith co' si').
Notation N0 := (Rwith co0 si0).

Lemma twin_calls : forall delta T T' T0 l m m' m0 m1 m01, (0 < T)%R -> (0 < T')%R -> (T0 <= 0)%R ->
  (forall a, In a l -> a_override a = None /\
    (Rabs (fst (tfd_prefactors N T (a_freq a)) - fst (tfd_prefactors N' T' (a_freq a))) + Rabs (snd (tfd_prefactors N T (a_freq a)) - snd (tfd_prefactors N' T' (a_freq a))) <= delta)%R) ->
  m_temp m = T -> m_temp m' = T' -> m_temp m0 = T0 -> twin m m' m0 delta -> accepts N m l m1 -> accepts N0 m0 l m01 ->
  exists m1', accepts N' m' l m1' /\ twin m1 m1' m01 delta.
Proof.
  intros delta T T' T0 l. induction l as [|a l IH]; intros m m' m0 m1 m01 HT HT' HT0 Hl ET ET' ET0 Tw A A0; cbn in A, A0; [subst; exists m'; split; [reflexivity|exact Tw]|].
  destruct A as [logs [q [E [L A]]]]. destruct A0 as [logs0 [q0 [E0 [L0 A0]]]]. destruct (Hl a (or_introl eq_refl)) as [Ov Hd].
  destruct (hot_call co si m a logs q ltac:(lra) Ov E L) as [Ac [tm [g [Mt [Nt [Un [Tm [Sg [EM [EN Eq]]]]]]]]]].
  destruct Tw as [Al Fr [D1 D2] [H1 H2] Ch]. rewrite <- D2 in Tm. destruct (cold_call co0 si0 m0 a logs0 q0 ltac:(lra) Ov E0 L0 tm Tm) as [g0 [Sg0 Eq0]]. rewrite D2 in Tm.
  rewrite H2 in Sg0. pose proof (strength_det _ _ _ _ _ _ _ _ _ Sg Sg0) as ->.
  destruct Al as (A1 & A2 & A3 & A4 & A5 & A6 & FA).
  assert (Sg' : strength N' (h_hop (m_ham m')) (a_freq a) a g) by (rewrite H1; exact Sg).
  assert (Ac' : acceptable N' m' a) by (destruct Ac; constructor; assumption || (intros; try split; congruence)).
  rewrite <- D1 in Tm. destruct (hot_make co' si' m' a tm g Mt Nt ltac:(lra) Ov Ac' Tm Sg' EM EN) as [logs' [E' L']].
  set (q' := after_hot m' a tm g _ _ Mt Nt) in *.
  assert (Tq : twin q q' q0 delta).
  { subst q q0 q'. rewrite ET, ET' in *. destruct (tfd_prefactors N T (a_freq a)) as [V Vt]. destruct (tfd_prefactors N' T' (a_freq a)) as [V' Vt']. cbn [fst snd] in *.
    constructor; unfold after_hot; cbn [m_ham h_freqs h_dim h_hop].
    - unfold alike. cbn [m_lattice m_ntypes m_pe m_pn m_mps m_aext m_ham h_terms]. rewrite A2, A3, A4. repeat split; try assumption; try reflexivity.
      apply Forall2_app; [apply Forall2_app; [exact FA|apply sketch_same]|apply sketch_same].
    - rewrite Fr. reflexivity.
    - split; assumption.
    - split; assumption.
    - unfold coupling_change, Spec_exact.coupling_sum in *. cbn [m_ham h_terms]. rewrite A2. pose proof (Forall2_len _ _ _ FA) as LL.
      rewrite combine_app by (rewrite !app_length, !map_length; lia). rewrite combine_app by exact LL. rewrite !fold_sum_app, !sketch_change by exact Un. rewrite sketch_sum by exact Un.
      rewrite <- !Rmult_minus_distr_l, !Rabs_mult, Rabs_R1, Rmult_1_r. set (n := INR (List.length tm)). assert (n0 : (0 <= n)%R) by apply pos_INR.
      pose proof (Rabs_pos g) as G0. assert (n * Rabs g * (Rabs (V - V') + Rabs (Vt - Vt')) <= n * Rabs g * delta)%R by (apply Rmult_le_compat_l; [apply Rmult_le_pos; assumption|exact Hd]). lra. }
  destruct (IH q q' q0 m1 m01 HT HT' HT0 (fun b Hb => Hl b (or_intror Hb))) as [m1' [A1' Tw']]; try assumption.
  - rewrite Eq. exact ET.
  - rewrite Eq0. exact ET0.
  - exists m1'. split; [|exact Tw']. exists logs', q'. auto.
Qed.
End Twins.

(** At temperature zero the prefactors do not matter. *)
Lemma cold_any : forall co si co' si' l m m1, (m_temp m <= 0)%R -> (forall a, In a l -> a_override a = None) -> accepts (Rwith co si) m l m1 -> accepts (Rwith co' si') m l m1.
Proof.
  intros co si co' si' l. induction l as [|a l IH]; intros m m1 HT Ov A; cbn in A |- *; [exact A|]. destruct A as [logs [q [E [L A]]]]. exists logs, q.
  assert (X : model_add (Rwith co' si') m a = model_add (Rwith co si) m a).
  { assert (cold : n_ltb Rnum (n_0 Rnum) (m_temp m) = false) by (cbn; destruct (Rlt_dec 0 (m_temp m)); [lra|reflexivity]).
    unfold model_add, tfd_prefactors. cbn [Rwith n_ltb n_0 n_eqb n_1]. change 0%R with (n_0 Rnum). rewrite cold. reflexivity. }
  rewrite X. split; [exact E|]. split; [exact L|]. apply IH; [|intros b Hb; apply Ov; right; exact Hb|exact A].
  destruct (HModel_proofs.add_outcome_any _ (Rwith_ok co si) m a logs q E L) as (_ & _ & g & _ & D). unfold added in D. cbv zeta in D. destruct D as (_ & -> & _). exact HT.
Qed.

(** Models alike to good ones. *)
Lemma alike_good : forall (m m' : model R) ae, alike m m' -> List.length (h_freqs (m_ham m')) = List.length (h_freqs (m_ham m)) -> h_dim (m_ham m') = h_dim (m_ham m) -> good_model m ae -> good_model m' ae.
Proof.
  intros m m' ae (A1 & A2 & A3 & A4 & A5 & A6 & FA) LF DD G.
  assert (B : forall h', In h' (h_terms (m_ham m')) -> exists h, In h (h_terms (m_ham m)) /\ same_place h h').
  { clear - FA. induction FA as [|h h' l l' S FA IH]; intros x Hx; [destruct Hx|]. destruct Hx as [<- | Hx]; [exists h; split; [left; reflexivity|exact S]|]. destruct (IH x Hx) as [y [Hy Sy]]. exists y. split; [right; exact Hy|exact Sy]. }
  assert (F : forall h, In h (h_terms (m_ham m)) -> exists h', In h' (h_terms (m_ham m')) /\ same_place h h').
  { clear - FA. induction FA as [|h h' l l' S FA IH]; intros x Hx; [destruct Hx|]. destruct Hx as [<- | Hx]; [exists h'; split; [left; reflexivity|exact S]|]. destruct (IH x Hx) as [y [Hy Sy]]. exists y. split; [right; exact Hy|exact Sy]. }
  destruct G as [W ? ? ? ? ? ? Ix Ph Ps Pl [hm [Hm Dm]] Dt]. constructor.
  - unfold wf_model in *. rewrite ?A2, ?A3, ?A4, ?A5, ?DD. exact W.
  - unfold absolute_extent in *. rewrite A3, A6. assumption.
  - assumption.
  - rewrite A5. assumption.
  - rewrite A2, A3. assumption.
  - rewrite A2, A4. assumption.
  - rewrite A2, LF. assumption.
  - intros h' Hh. destruct (B h' Hh) as [h [Hi (E1 & E2 & E3 & E4)]]. rewrite A2, E4. apply Ix, Hi.
  - intros h' Hh. destruct (B h' Hh) as [h [Hi (E1 & E2 & E3 & E4)]]. rewrite E2. apply Ph, Hi.
  - intros h' Hh. destruct (B h' Hh) as [h [Hi (E1 & E2 & E3 & E4)]]. rewrite E1. apply Ps, Hi.
  - intros t Ht. rewrite A2 in Ht. destruct (Pl t Ht) as [h [Hi [Ei Ed]]]. destruct (F h Hi) as [h' [Hi' (E1 & E2 & E3 & E4)]]. exists h'. split; [exact Hi'|]. split; congruence.
  - destruct (F hm Hm) as [h' [Hi' (E1 & E2 & E3 & E4)]]. exists h'. split; [exact Hi'|congruence].
  - intros h' h2' Hh Hh2 Hf. destruct (B h' Hh) as [h [Hi (E1 & E2 & E3 & E4)]]. destruct (B h2' Hh2) as [h2 [Hi2 (E1' & E2' & E3' & E4')]]. rewrite E1, E2. rewrite E2' in Hf. exact (Dt h h2 Hi Hi2 Hf).
Qed.

(** As [Spectral_proofs.built_hermitian], for any prefactors. *)
Lemma made_hermitian : forall co si m fs cs ae (e : env R CR), (forall x, ev e x = RtoC x) -> built (Rwith co si) 1 m fs cs -> good_model m ae -> hermitian e m.
Proof.
  intros co si m fs cs ae e He B G. pose proof (Rwith_ok co si) as K. destruct (HModel_proofs.built_closed (Rwith co si) K Ropp_involutive 1%nat m fs cs B) as [ND Cl].
  set (ops := h_terms (m_ham m)) in *. exists (map conjugate ops). fold ops.
  assert (L1 : forall h, In h ops -> v2 (ht_psi h) = [psi1 h] /\ v2 (ht_phi h) = [phi1 h]).
  { intros h Hh. destruct (Rows_proofs.vec1 m ae G h Hh). auto. }
  assert (C1' : forall h, In h ops -> psi1 (conjugate h) = - psi1 h /\ phi1 (conjugate h) = phi1 h - psi1 h).
  { intros h Hh. destruct (L1 h Hh) as [E1 E2]. unfold psi1 at 1, phi1 at 1. unfold conjugate, vneg, vsub. cbn [ht_psi ht_phi v2].
    rewrite E1, E2. split; reflexivity. }
  assert (CC : forall h, In h ops -> conjugate (conjugate h) = h).
  { intros h Hh. destruct (L1 h Hh) as [E1 E2].
    destruct (HModel_proofs.i_terms _ _ _ _ _ (HModel_proofs.built_inv (Rwith co si) K 1%nat m fs cs B) h Hh) as [g [psi [phi [d [s [_ [_ [_ [X _]]]]]]]]].
    generalize dependent (psi1 h). generalize dependent (phi1 h). intros b E2 a E1.
    destruct h as [t p q dg cc i f]. cbn [ht_type ht_psi ht_phi ht_dag ht_coupling ht_index ht_freq] in *. injection X as -> -> -> ->. cbn [v2] in E1, E2. subst psi phi.
    unfold conjugate, vneg, vsub. cbn [ht_type ht_psi ht_phi ht_dag ht_coupling ht_index ht_freq isf v2 map combine fst snd].
    rewrite !orb_false_r, Z.opp_involutive. replace (b - a - - a) with b by lia.
    destruct d; reflexivity. }
  split.
  - apply NoDup_Permutation_bis; [exact ND|rewrite map_length; reflexivity|]. apply NoDup_length_incl; [|rewrite map_length; reflexivity|].
    + assert (IJ : forall l, (forall h, In h l -> In h ops) -> NoDup l -> NoDup (map conjugate l)).
      { induction l as [|h r IH]; intros Hl N; [constructor|]. inversion N as [|? ? N1 N2]; subst. cbn [map]. constructor; [|apply IH; [intros; apply Hl; right; assumption|exact N2]].
        rewrite in_map_iff. intros [h' [E H']]. apply N1. replace h with h'; [exact H'|].
        rewrite <- (CC h (Hl h (or_introl eq_refl))), <- (CC h' (Hl h' (or_intror H'))), E. reflexivity. }
      apply IJ; [auto|exact ND].
    + intros h Hh. apply in_map_iff in Hh. destruct Hh as [h' [<- Hh']]. apply Cl. exact Hh'.
  - assert (FF : forall l, (forall h, In h l -> In h ops) -> Forall2 (adjoint_op e) l (map conjugate l)).
    { induction l as [|h l IH]; intros H; cbn [map]; constructor; [|apply IH; intros; apply H; right; assumption].
      destruct (C1' h (H h (or_introl eq_refl))) as [A B']. unfold adjoint_op. rewrite A, B', !He. unfold conjugate. cbn [ht_dag ht_index ht_coupling].
      repeat split; reflexivity. }
    apply FF. auto.
Qed.

Lemma keeps : forall co si l m m1, accepts (Rwith co si) m l m1 -> m_lattice m1 = m_lattice m /\ h_hop (m_ham m1) = h_hop (m_ham m) /\ m_temp m1 = m_temp m /\ m_mps m1 = m_mps m /\ h_dim (m_ham m1) = h_dim (m_ham m).
Proof.
  intros co si l. induction l as [|a l IH]; intros m m1 A; cbn in A; [subst; auto|]. destruct A as [logs [q [E [L A]]]]. destruct (IH q m1 A) as (-> & -> & -> & -> & ->).
  destruct (HModel_proofs.add_outcome_any _ (Rwith_ok co si) m a logs q E L) as (_ & _ & g & _ & D). unfold added in D. cbv zeta in D. destruct D as (H1 & H2 & H3 & _ & H5 & H6 & _). auto 6.
Qed.

(** Calls accepted at a temperature are accepted at temperature zero. *)
Lemma hot_to_cold : forall co si co0 si0 l m m0 m1, (0 < m_temp m)%R -> (m_temp m0 <= 0)%R -> (forall a, In a l -> a_override a = None) ->
  h_dim (m_ham m0) = h_dim (m_ham m) -> h_hop (m_ham m0) = h_hop (m_ham m) -> accepts (Rwith co si) m l m1 -> exists m01, accepts (Rwith co0 si0) m0 l m01.
Proof.
  intros co si co0 si0 l. induction l as [|a l IH]; intros m m0 m1 HT HT0 Ov D H A; cbn in A; [exists m0; reflexivity|]. destruct A as [logs [q [E [L A]]]].
  pose proof (Ov a (or_introl eq_refl)) as Oa. destruct (hot_call co si m a logs q HT Oa E L) as [Ac [tm [g [Mt [Nt [Un [Tm [Sg [EM [EN Eq]]]]]]]]]].
  assert (cold : n_ltb (Rwith co0 si0) (n_0 (Rwith co0 si0)) (m_temp m0) = false) by (cbn; destruct (Rlt_dec 0 (m_temp m0)); [lra|reflexivity]).
  assert (Ac0 : acceptable (Rwith co0 si0) m0 a) by (destruct Ac; constructor; try assumption; intros; congruence).
  assert (E0 : exists logs0 q0, model_add (Rwith co0 si0) m0 a = Ok (logs0, q0) /\ ~ In LError logs0).
  { unfold model_add. cbv zeta. rewrite (HModel_proofs.add_passes (Rwith co0 si0) m0 a Ac0). rewrite cold, Oa. unfold tfd_prefactors. rewrite cold.
    rewrite <- D in Tm. rewrite <- H in Sg. rewrite (make co0 si0 (m_ham m0) a _ _ _ g tm Sg (Zle_0_nat (m_ntypes m0)) Tm). cbn [bind]. eexists. eexists. split; [reflexivity|].
    rewrite in_app_iff. intros [X|[X|[]]]; [|discriminate]. destruct (n_eqb _ (m_temp m0) _ && _); [destruct X as [X|[]]; discriminate|destruct X]. }
  destruct E0 as [logs0 [q0 [E0 L0]]].
  assert (K0 : accepts (Rwith co0 si0) m0 [a] q0) by (exists logs0, q0; repeat split; assumption). destruct (keeps _ _ _ _ _ K0) as (_ & H2 & H3 & _ & H5).
  destruct (IH q q0 m1) as [m01 A01]; try assumption.
  - rewrite Eq. exact HT.
  - rewrite H3. exact HT0.
  - intros b Hb. apply Ov. right. exact Hb.
  - rewrite H5, Eq. exact D.
  - rewrite H2, Eq. exact H.
  - exists m01. exists logs0, q0. auto.
Qed.

(** Models that nothing was added to. *)
Lemma twin_start : forall hop lat mps T T' T0 delta, twin (from_parameters hop lat T mps 1) (from_parameters hop lat T' mps 1) (from_parameters hop lat T0 mps 1) delta.
Proof.
  intros. constructor; cbn; try (split; reflexivity); try reflexivity.
  - repeat split. constructor.
  - unfold coupling_change, Spec_exact.coupling_sum. cbn. lra.
Qed.

(** * The prefactors *)
Open Scope R_scope.
Lemma cold_prefactors : forall tau T O, 0 <= tau -> 0 < T -> 0 < O -> T <= tau * tau * O ->
  Rabs (fst (tfd_prefactors Rnum T O) - 1) + Rabs (snd (tfd_prefactors Rnum T O) - 0) <= tau + tau * tau / 2.
Proof.
  intros tau T O Ht HT HO HB. destruct (tfd_prefactors Rnum T O) as [c s] eqn:E. cbn [fst snd]. destruct (Physics_proofs.low_temperature T O c s HT HO E) as [[S1 S2] [C1' C2]].
  destruct (Physics_proofs.prefactors T O c s HT HO E) as (_ & _ & _ & C0' & S0). assert (Q : T / O <= tau * tau) by (apply (Rmult_le_reg_r O); [exact HO|]; unfold Rdiv; rewrite Rmult_assoc, Rinv_l by lra; lra).
  rewrite !Rabs_right by lra. assert (s <= tau) by nra. assert (c - 1 <= tau * tau / 2) by nra. lra.
Qed.

Lemma prefactor_gap : forall T T' O, 0 < T -> 0 < T' -> 0 < O ->
  Rabs (fst (tfd_prefactors Rnum T O) - fst (tfd_prefactors Rnum T' O)) + Rabs (snd (tfd_prefactors Rnum T O) - snd (tfd_prefactors Rnum T' O)) <=
  Rabs (1 / (exp (O / T) - 1) - 1 / (exp (O / T') - 1)) / 2 + sqrt (Rabs (1 / (exp (O / T) - 1) - 1 / (exp (O / T') - 1))).
Proof.
  intros T T' O HT HT' HO. destruct (tfd_prefactors Rnum T O) as [c s] eqn:E. destruct (tfd_prefactors Rnum T' O) as [c' s'] eqn:E'. cbn [fst snd].
  destruct (Physics_proofs.prefactors T O c s HT HO E) as (_ & C2 & S2 & C1' & S1). destruct (Physics_proofs.prefactors T' O c' s' HT' HO E') as (_ & C2' & S2' & C1'' & S1').
  set (b := 1 / (exp (O / T) - 1)) in *. set (b' := 1 / (exp (O / T') - 1)) in *.
  assert (X : Rabs (b - b') = Rabs (c - c') * (c + c')). { replace (b - b') with ((c - c') * (c + c')) by lra. rewrite Rabs_mult, (Rabs_right (c + c')) by lra. reflexivity. }
  assert (Y : Rabs (b - b') = Rabs (s - s') * (s + s')). { replace (b - b') with ((s - s') * (s + s')) by lra. rewrite Rabs_mult, (Rabs_right (s + s')) by lra. reflexivity. }
  apply Rplus_le_compat.
  - rewrite X. pose proof (Rabs_pos (c - c')). nra.
  - rewrite <- (sqrt_square (Rabs (s - s'))) by apply Rabs_pos. apply sqrt_le_1_alt. rewrite Y. apply Rmult_le_compat_l; [apply Rabs_pos|]. unfold Rabs. destruct (Rcase_abs _); lra.
Qed.

Lemma bose_continuous : forall O T, 0 < T -> 0 < O -> forall eps, 0 < eps -> exists d, 0 < d /\ forall T', 0 < T' -> Rabs (T' - T) < d -> Rabs (1 / (exp (O / T) - 1) - 1 / (exp (O / T') - 1)) < eps.
Proof.
  intros O T HT HO eps He. assert (X : 1 < exp (O / T)). { rewrite <- exp_0. apply exp_increasing. apply Rdiv_lt_0_compat; assumption. }
  assert (C : continuity_pt (fun t => / (exp (O / t) - 1)) T).
  { apply (continuity_pt_inv (fun t => exp (O / t) - 1)); [|lra]. apply continuity_pt_minus; [|apply continuity_pt_const; intros ? ?; reflexivity].
    apply (continuity_pt_comp (fun t => O / t) exp); [|apply derivable_continuous_pt, derivable_pt_exp].
    unfold Rdiv. apply continuity_pt_mult; [apply continuity_pt_const; intros ? ?; reflexivity|]. apply (continuity_pt_inv id); [apply derivable_continuous_pt, derivable_pt_id|unfold id; lra]. }
  destruct (C eps He) as [d [Hd D]]. exists d. split; [exact Hd|]. intros T' HT' Hd'. unfold Rdiv. rewrite !Rmult_1_l. rewrite Rabs_minus_sym.
  destruct (Req_EM_T T' T) as [->|N]; [rewrite Rminus_diag_eq, Rabs_R0 by reflexivity; exact He|]. apply D. split; [split; [exact I|congruence]|exact Hd'].
Qed.

Lemma calls_continuous : forall (l : list (add_args R)) T, 0 < T -> (forall a, In a l -> 0 < a_freq a) -> forall delta, 0 < delta -> exists d, 0 < d /\ forall T', 0 < T' -> Rabs (T' - T) < d -> forall a, In a l ->
  Rabs (fst (tfd_prefactors Rnum T (a_freq a)) - fst (tfd_prefactors Rnum T' (a_freq a))) + Rabs (snd (tfd_prefactors Rnum T (a_freq a)) - snd (tfd_prefactors Rnum T' (a_freq a))) <= delta.
Proof.
  intros l T HT. induction l as [|a l IH]; intros Hf delta Hd; [exists 1; split; [lra|intros ? ? ? ? []]|].
  destruct (IH (fun b Hb => Hf b (or_intror Hb)) delta Hd) as [d1 [D1 H1]]. set (x := Rmin 1 (delta / 2)). assert (X : 0 < x <= 1 /\ x <= delta / 2) by (unfold x, Rmin; destruct (Rle_dec 1 (delta / 2)); lra).
  assert (Hx : 0 < x * x) by nra. destruct (bose_continuous (a_freq a) T HT (Hf a (or_introl eq_refl)) (x * x) Hx) as [d2 [D2 H2]].
  exists (Rmin d1 d2). split; [apply Rmin_glb_lt; assumption|]. intros T' HT' Hc b [<- | Hb].
  - specialize (H2 T' HT' (Rlt_le_trans _ _ _ Hc (Rmin_r _ _))). eapply Rle_trans; [apply prefactor_gap; auto; apply Hf; left; reflexivity|].
    set (y := Rabs _) in *. assert (sqrt y <= x). { rewrite <- (sqrt_square x) by lra. apply sqrt_le_1_alt. lra. } nra.
  - apply H1; [exact HT'|exact (Rlt_le_trans _ _ _ Hc (Rmin_l _ _))|exact Hb].
Qed.

Lemma calls_cold : forall (l : list (add_args R)), (forall a, In a l -> 0 < a_freq a) -> forall delta, 0 < delta -> exists T1, 0 < T1 /\ forall T, 0 < T -> T <= T1 -> forall a, In a l ->
  Rabs (fst (tfd_prefactors Rnum T (a_freq a)) - 1) + Rabs (snd (tfd_prefactors Rnum T (a_freq a)) - 0) <= delta.
Proof.
  intros l. induction l as [|a l IH]; intros Hf delta Hd; [exists 1; split; [lra|intros ? ? ? ? []]|].
  destruct (IH (fun b Hb => Hf b (or_intror Hb)) delta Hd) as [d1 [D1 H1]]. set (x := Rmin 1 (delta / 2)). assert (X : 0 < x <= 1 /\ x <= delta / 2) by (unfold x, Rmin; destruct (Rle_dec 1 (delta / 2)); lra).
  pose proof (Hf a (or_introl eq_refl)) as Ha. assert (Hx : 0 < x * x * a_freq a) by (apply Rmult_lt_0_compat; [nra|exact Ha]).
  exists (Rmin d1 (x * x * a_freq a)). split; [apply Rmin_glb_lt; assumption|]. intros T HT Hc b [<- | Hb].
  - eapply Rle_trans; [apply (cold_prefactors x T (a_freq a)); [lra|exact HT|exact Ha|exact (Rle_trans _ _ _ Hc (Rmin_r _ _))]|]. nra.
  - apply H1; [exact HT|exact (Rle_trans _ _ _ Hc (Rmin_l _ _))|exact Hb].
Qed.
