(** What the objects of a finished System can reach. *)
From Coq Require Import String ZArith List Arith Bool Lia.
From Verif Require Import Base NdArray Config Model Space Render Term Equation System Heap Heap_proofs Objects_proofs Build_proofs Separate_proofs Master_proofs Refine_proofs Spec_alias.
Import ListNotations.
Open Scope list_scope.
Open Scope nat_scope.

Section Alias.
Context {T : Type}.
Implicit Types (h : heap T).

Lemma dangling : forall h, no_dangling h <-> sealed 0 h.
Proof.
  intros h. split; intros H.
  - intros l c _ E y Y. split; [lia|]. eapply H; eassumption.
  - intros l c E y Y. apply (H l c); auto. lia.
Qed.

Lemma closed_reaches : forall h (P : loc -> Prop), (forall x c y, P x -> cell_at h x = Some c -> In y (refs c) -> P y) -> forall x y, reaches h x y -> P x -> P y.
Proof. intros h P H x y R. induction R; eauto. Qed.

Lemma listed_dr : forall h d y, listed h d y <-> In y (dr h d).
Proof.
  intros h d y. unfold dr, items, as_. split.
  - intros (D & k & l & xs & A & B & C & E). rewrite A. cbn [opt_bind is_dict]. apply in_flat_map. exists (k, l). split; [exact B|]. cbn [snd]. rewrite C. exact E.
  - destruct (cell_at h d) as [[]|] eqn:A; cbn [opt_bind is_dict]; try (intros []). intros I. apply in_flat_map in I as [[k l] [I J]]. cbn [snd] in J.
    destruct (cell_at h l) as [[]|] eqn:C; cbn [opt_bind is_list] in J; try contradiction. exists d0, k, l, l0. auto.
Qed.

(** All that a finished System refers to. *)
Definition region h (s : osystem) (lo n : nat) (bs bs' : list spot) (D : sdict loc) (y : loc) : Prop :=
  lo <= y < n \/ inblk bs y \/ inblk bs' y \/ y = os_fargs s \/ In y (map snd D) \/ In y (dr h (os_fargs s)).

Lemma Forall2_left : forall A B (R : A -> B -> Prop) l l', Forall2 R l l' -> forall x, In x l -> exists y, In y l' /\ R x y.
Proof. intros A B R l l' F. induction F as [|a b l l' H F IH]; intros x X; [destruct X|]. destruct X as [<-|X]; [exists b; cbn; auto|]. destruct (IH x X) as (y & Y & Z). exists y. cbn. auto. Qed.
Lemma Forall2_at : forall A B (R : A -> B -> Prop) l l', Forall2 R l l' -> forall i x, nth_error l i = Some x -> exists y, nth_error l' i = Some y /\ R x y.
Proof. intros A B R l l' F. induction F as [|a b l l' H F IH]; intros i x X; [destruct i; discriminate|]. destruct i as [|i]; cbn in X |- *; [injection X as <-; eauto|eauto]. Qed.

(** Two arrays of the dictionary are the same only if they are listed for the same cloud. *)
Lemma items_key : forall h (D : sdict loc), NoDup (items h D) -> forall k l xs k' l' xs' x, In (k, l) D -> In (k', l') D -> cell_at h l = Some (CList xs) -> cell_at h l' = Some (CList xs') ->
  In x xs -> In x xs' -> k = k'.
Proof.
  intros h D N k l xs k' l' xs' x. unfold items in N. revert N. induction D as [|[k0 l0] D IH]; intros N I I' C C' X X'; [destruct I|]. cbn [flat_map snd] in N.
  assert (INN : forall k l xs, In (k, l) D -> cell_at h l = Some (CList xs) -> In x xs -> In x (flat_map (fun kl => match as_ is_list h (snd kl) with Some xs => xs | None => [] end) D)).
  { intros k1 l1 xs1 J C1 X1. apply in_flat_map. exists (k1, l1). split; [exact J|]. cbn [snd]. unfold as_. rewrite C1. exact X1. }
  assert (HD : forall k l xs, (k0, l0) = (k, l) -> cell_at h l = Some (CList xs) -> In x xs -> In x (match as_ is_list h l0 with Some xs => xs | None => [] end)).
  { intros k1 l1 xs1 J C1 X1. injection J as _ ->. unfold as_. rewrite C1. exact X1. }
  destruct I as [I|I], I' as [I'|I'].
  - congruence.
  - exfalso. eapply NoDup_app_disj; [exact N|eapply HD; eassumption|eapply INN; eassumption].
  - exfalso. eapply NoDup_app_disj; [exact N|eapply HD; eassumption|eapply INN; eassumption].
  - apply IH; auto. eapply NoDup_app_r, N.
Qed.

Lemma finished_region : forall lo h s v, finished lo h s v -> exists P : loc -> Prop,
  (forall x, attribute s x -> P x) /\ (forall x, P x -> lo <= x /\ exists c, cell_at h x = Some c /\ forall y, In y (refs c) -> P y).
Proof.
  intros lo h s v (n & bs & k & N & bs' & D & E1 & E2 & E3 & E4 & EO & L1 & L2 & L3 & B0 & A1 & A2 & A3 & A4 & A5 & A6 & ND & A7 & A8 & A9).
  assert (DD : forall y xs l z, In (z, l) D -> cell_at h l = Some (CList xs) -> In y xs -> In y (dr h (os_fargs s))).
  { intros y xs l z I C Y. apply listed_dr. exists D, z, l, xs. auto. }
  assert (LC : forall l, In l (map snd D) -> exists xs, cell_at h l = Some (CList xs)).
  { intros l I. unfold a_dict in E3. rewrite A7 in E3. apply opt_map_some in E3. clear - E3 I. induction E3 as [|[z l'] w D V E F IH]; [destruct I|]. destruct I as [<-|I]; [|auto].
    cbn [fst snd] in *. unfold a_list in E. destruct (cell_at h l') as [[]|]; try discriminate. eauto. }
  exists (region h s lo n bs bs' D). split.
  - intros x [-> |[-> |X]]; [left; lia|right; right; right; left; reflexivity|].
    unfold equations_of in X. apply in_app_or in X as [X|X].
    + rewrite A1 in X. apply in_map_iff in X as [p [<- I]]. right. left. exists p. split; [exact I|]. apply (chain_in _ _ _ _ A2 I).
    + rewrite A4 in X. apply in_map_iff in X as [p [<- I]]. right. right. left. exists p. split; [exact I|]. apply (chain_in _ _ _ _ A5 I).
  - intros x [X|[X|[X|[X|[X|X]]]]].
    + destruct (B0 x X) as [c [C R]]. split; [lia|]. exists c. split; [exact C|]. intros y Y. left. auto.
    + pose proof (inblk_bounds _ _ _ _ A2 X) as L. split; [lia|]. destruct X as (p & I & J). rewrite Forall_forall in A3. destruct (A3 p I x J) as [c [C R]]. exists c. split; [exact C|].
      intros y Y. right. left. exists p. auto.
    + pose proof (inblk_bounds _ _ _ _ A5 X) as L. apply chain_le in A2. split; [lia|]. destruct X as (p & I & J). destruct (Forall2_left _ _ _ _ _ A6 p I) as (w & _ & x0 & CX & W). destruct (W x J) as [c [C R]]. exists c. split; [exact C|].
      intros y Y. destruct (R y Y) as [Z|[<-|[]]]; [right; right; left; exists p; auto|]. destruct CX as (l & xs & dv & Q1 & Q2 & Q3 & _). pose proof (DD x0 xs l _ Q1 Q2 Q3). unfold region. tauto.
    + subst x. split; [destruct (A8 (os_fargs s) (or_introl eq_refl)); lia|]. eexists. split; [exact A7|]. cbn [refs]. intros y Y. unfold region. tauto.
    + split; [destruct (A8 x (or_intror X)); lia|]. destruct (LC x X) as [xs C]. eexists. split; [exact C|]. cbn [refs]. intros y Y. apply in_map_iff in X as [[z l] [E I]]. cbn in E. subst l.
      unfold region. pose proof (DD y xs x z I C Y). tauto.
    + destruct (A9 x X) as [L [u C]]. apply chain_le in A2. split; [lia|]. eexists. split; [exact C|]. intros y [].
Qed.

Lemma region_iso : forall h h' (P : loc -> Prop), (forall x, P x -> exists c, cell_at h x = Some c /\ forall y, In y (refs c) -> P y) -> (forall x, P x -> cell_at h' x = cell_at h x) ->
  iso P (fun x => x) h h'.
Proof. intros h h' P H A x X. destruct (H x X) as [c [C R]]. exists c. rewrite relink_id. rewrite (A x X). auto. Qed.

Lemma chain_app : forall bs lo k N bs' hi, chain lo bs k -> k <= N -> chain N bs' hi -> chain lo (bs ++ bs') hi.
Proof.
  induction bs as [|[e [a b]] bs IH]; cbn [chain app]; intros lo k N bs' hi A L B.
  - destruct bs' as [|[e [a b]] bs']; cbn in *; [lia|]. destruct B as (B1 & B2 & B3). split; [lia|auto].
  - destruct A as (A1 & A2 & A3). split; [exact A1|]. split; [exact A2|]. eapply IH; eassumption.
Qed.

Lemma chain_order : forall bs lo hi i j s t, chain lo bs hi -> i < j -> nth_error bs i = Some s -> nth_error bs j = Some t -> snd (snd s) <= fst (snd t).
Proof.
  induction bs as [|[e [a b]] bs IH]; intros lo hi i j s t C L I J; [destruct i; discriminate|]. cbn in C. destruct C as (C1 & C2 & C3). destruct j as [|j]; [lia|]. cbn in J. destruct i as [|i]; cbn in I.
  - injection I as <-. cbn. apply nth_error_In in J. destruct (chain_in _ _ _ _ C3 J) as (X & _). exact X.
  - eapply IH; [exact C3| |exact I|exact J]. lia.
Qed.

Lemma within_reaches : forall h Q a b, within Q a b h -> (forall y, In y Q -> exists u, cell_at h y = Some (CVec u)) ->
  forall x y, reaches h x y -> a <= x < b -> a <= y < b \/ In y Q.
Proof.
  intros h Q a b W V x y R X. apply (closed_reaches h (fun z => a <= z < b \/ In z Q)) with (x := x); auto. intros z c t [Z|Z] C I.
  - destruct (W z Z) as [c' [C' Rf]]. rewrite C in C'. injection C' as <-. auto.
  - destruct (V z Z) as [u Cu]. rewrite C in Cu. injection Cu as ->. destruct I.
Qed.

Lemma apart : forall lo h s v, finished lo h s v -> forall i j x y z, i < j -> nth_error (equations_of s) i = Some x -> nth_error (equations_of s) j = Some y -> reaches h x z -> reaches h y z ->
  exists a b wa wb, i = List.length (flat_map snd (os_gen s)) + a /\ j = List.length (flat_map snd (os_gen s)) + b /\ nth_error (flat_map snd (s_eqs v)) a = Some wa /\ nth_error (flat_map snd (s_eqs v)) b = Some wb /\
    phonon_config_id (cfg (t_cfg (e_index wa))) = phonon_config_id (cfg (t_cfg (e_index wb))) /\ t_f (e_index wa) = t_f (e_index wb) /\ listed h (os_fargs s) z /\ exists u, cell_at h z = Some (CVec u).
Proof.
  intros lo h s v (n & bs & k & N & bs' & D & _ & _ & _ & _ & _ & L1 & L2 & L3 & B0 & A1 & A2 & A3 & A4 & A5 & A6 & ND & A7 & A8 & A9) i j x y z L I J Rx Ry.
  unfold equations_of in I, J. rewrite A1, A4, <- map_app in I, J. rewrite A1, map_length.
  destruct (nth_error (bs ++ bs') i) as [p|] eqn:Ei; [|rewrite nth_error_map, Ei in I; discriminate]. rewrite nth_error_map, Ei in I. injection I as <-.
  destruct (nth_error (bs ++ bs') j) as [q|] eqn:Ej; [|rewrite nth_error_map, Ej in J; discriminate]. rewrite nth_error_map, Ej in J. injection J as <-.
  pose proof (chain_app _ _ _ _ _ _ A2 L2 A5) as CH. pose proof (chain_order _ _ _ _ _ _ _ CH L Ei Ej) as O.
  pose proof (chain_in _ _ _ _ CH (nth_error_In _ _ Ei)) as (P1 & P2 & P3). pose proof (chain_in _ _ _ _ CH (nth_error_In _ _ Ej)) as (Q1 & Q2 & Q3).
  rewrite Forall_forall in A3. pose proof (chain_le _ _ _ A2) as NK.
  assert (DRI : forall w x, chosen D h x w -> In x (dr h (os_fargs s))).
  { intros w x (l & xs & dv & Q4 & Q5 & Q6 & _). apply listed_dr. exists D, (phonon_config_id (cfg (t_cfg (e_index w)))), l, xs. auto. }
  assert (Qv : forall y, In y (dr h (os_fargs s)) -> exists u, cell_at h y = Some (CVec u)) by (intros t Tt; apply (A9 t Tt)).
  assert (G : forall p r, In p bs -> reaches h (fst p) r -> fst (snd p) <= r < snd (snd p)).
  { intros p0 r Ip Rr. assert (W : within [] (fst (snd p0)) (snd (snd p0)) h). { intros t Tt. destruct (A3 p0 Ip t Tt) as [c [C R]]. exists c. split; [exact C|]. intros w W. left. auto. }
    destruct (chain_in _ _ _ _ A2 Ip) as (_ & _ & X). destruct (within_reaches h [] _ _ W ltac:(intros ? []) _ _ Rr X) as [?|[]]; assumption. }
  assert (F : forall a p r, nth_error bs' a = Some p -> reaches h (fst p) r -> exists w x, nth_error (flat_map snd (s_eqs v)) a = Some w /\ chosen D h x w /\ (fst (snd p) <= r < snd (snd p) \/ r = x)).
  { intros a p0 r Ip Rr. destruct (Forall2_at _ _ _ _ _ A6 a p0 Ip) as (w & Ew & x & CX & W). exists w, x. split; [exact Ew|]. split; [exact CX|].
    destruct (chain_in _ _ _ _ A5 (nth_error_In _ _ Ip)) as (_ & _ & X). destruct (within_reaches h [x] _ _ W) with (x := fst p0) (y := r) as [? | [-> | []]]; auto.
    intros y [<-|[]]. apply Qv. eapply DRI, CX. }
  assert (HI : forall p, In p bs' -> N <= fst (snd p)) by (intros p0 Ip; destruct (chain_in _ _ _ _ A5 Ip) as (X & _); exact X).
  destruct (Nat.lt_ge_cases i (List.length bs)) as [Hi|Hi].
  - exfalso. rewrite nth_error_app1 in Ei by exact Hi. apply nth_error_In in Ei. pose proof (G p z Ei Rx) as Z. pose proof (chain_in _ _ _ _ A2 Ei) as (_ & PK & _).
    destruct (Nat.lt_ge_cases j (List.length bs)) as [Hj|Hj].
    + rewrite nth_error_app1 in Ej by exact Hj. apply nth_error_In in Ej. pose proof (G q z Ej Ry). lia.
    + rewrite nth_error_app2 in Ej by exact Hj. destruct (F _ q z Ej Ry) as (w & t & _ & CX & [? | ->]); [lia|]. apply DRI, A9 in CX. lia.
  - rewrite nth_error_app2 in Ei, Ej by lia. exists (i - List.length bs), (j - List.length bs).
    destruct (F _ p z Ei Rx) as (wa & xa & Wa & Ca & Za). destruct (F _ q z Ej Ry) as (wb & xb & Wb & Cb & Zb). exists wa, wb.
    pose proof (HI p (nth_error_In _ _ Ei)). pose proof (HI q (nth_error_In _ _ Ej)).
    assert (XA : k <= xa < N) by (apply A9; eapply DRI, Ca). assert (XB : k <= xb < N) by (apply A9; eapply DRI, Cb).
    assert (z = xa /\ z = xb) as [-> <-] by (destruct Za, Zb; subst; lia).
    pose proof (DRI _ _ Ca) as DZ. destruct Ca as (l & xs & dv & Q4 & Q5 & Q6 & Q7 & Q8). destruct Cb as (l' & xs' & dv' & Q4' & Q5' & Q6' & Q7' & Q8').
    split; [lia|]. split; [lia|]. split; [exact Wa|]. split; [exact Wb|]. split; [|split; [congruence|split; [apply listed_dr, DZ|apply Qv, DZ]]].
    eapply items_key; [|exact Q4|exact Q4'|exact Q5|exact Q5'|exact Q6|exact Q6']. unfold dr, as_ in ND. rewrite A7 in ND. exact ND.
Qed.

(** * Models laid out on a heap *)
Lemma lay_len : forall (hs : list (hterm T)) b, List.length (lay_terms b hs) = 3 * List.length hs.
Proof. induction hs as [|t hs IH]; intros b; [reflexivity|]. cbn [lay_terms List.length]. rewrite IH. lia. Qed.

Lemma lay_read : forall (hs : list (hterm T)) b x y, List.length x = b -> opt_map (a_hterm (x ++ lay_terms b hs ++ y)) (lay_locs b hs) = Some hs.
Proof.
  induction hs as [|t hs IH]; intros b x y E; [reflexivity|]. cbn [lay_terms lay_locs opt_map]. set (c3 := CHterm _ _ _ _ _ _ _).
  assert (H0 : forall r, cell_at (x ++ r) b = nth_error r 0) by (intros r; rewrite <- E; unfold cell_at; rewrite nth_error_app2, Nat.sub_diag by lia; reflexivity).
  assert (H1 : forall r, cell_at (x ++ r) (S b) = nth_error r 1) by (intros r; rewrite <- E; unfold cell_at; rewrite nth_error_app2 by lia; f_equal; lia).
  assert (H2 : forall r, cell_at (x ++ r) (S (S b)) = nth_error r 2) by (intros r; rewrite <- E; unfold cell_at; rewrite nth_error_app2 by lia; f_equal; lia).
  unfold a_hterm at 1. rewrite H2. cbn [nth_error app]. unfold c3 at 1, a_vec at 1 2. rewrite H0, H1. cbn [nth_error app opt_bind].
  specialize (IH (S (S (S b))) (x ++ [CVec (ht_psi t); CVec (ht_phi t); c3]) y ltac:(rewrite app_length; cbn; lia)). rewrite <- app_assoc in IH. cbn [app] in IH. cbn [app]. rewrite IH.
  cbn [opt_bind]. destruct t; reflexivity.
Qed.

Lemma lay_model : forall m : model T, a_model (lay_out m) (laid_at m) = Some m.
Proof.
  intros m. unfold a_model, laid_at. unfold lay_out at 1. rewrite at_first. unfold lay_out. pose proof (lay_read (h_terms (m_ham m)) 0 [] [CModel (m_lattice m) (m_temp m) (lay_locs 0 (h_terms (m_ham m))) (h_freqs (m_ham m)) (h_dim (m_ham m)) (h_hop (m_ham m))
     (m_mps m) (m_pe m) (m_pn m) (m_aext m) (m_ntypes m)] eq_refl) as E. cbn [app] in E. rewrite E. destruct m as [? ? []]; reflexivity.
Qed.

Lemma lay_refs : forall (hs : list (hterm T)) b c, In c (lay_terms b hs) -> forall y, In y (refs c) -> y < b + 3 * List.length hs.
Proof.
  induction hs as [|t hs IH]; intros b c I y Y; [destruct I|]. cbn [lay_terms List.length] in *. destruct I as [<-|[<-|[<-|I]]]; try (destruct Y; fail).
  - cbn in Y. destruct Y as [<-|[<-|[]]]; lia.
  - specialize (IH _ _ I y Y). lia.
Qed.
Lemma lay_locs_lt : forall (hs : list (hterm T)) b y, In y (lay_locs b hs) -> y < b + 3 * List.length hs.
Proof. induction hs as [|t hs IH]; intros b y I; [destruct I|]. cbn [lay_locs List.length] in *. destruct I as [<-|I]; [lia|]. specialize (IH _ _ I). lia. Qed.

Lemma lay_no_dangling : forall m : model T, no_dangling (lay_out m).
Proof.
  intros m l c E y Y. unfold lay_out. rewrite app_length, lay_len. cbn. apply nth_error_In in E. unfold lay_out in E. apply in_app_or in E as [E|[<-|[]]].
  - pose proof (lay_refs _ _ _ E y Y). lia.
  - cbn [refs] in Y. pose proof (lay_locs_lt _ _ _ Y). lia.
Qed.
End Alias.
