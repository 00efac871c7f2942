(** Proofs for C72: the moments at a temperature are those of the thermofield
    double without phonons. *)
From Coq Require Import String ZArith Reals List Bool Lia Lra Permutation Classical FunctionalExtensionality.
From Verif Require Import Base Model HModel Ring Coef Cplx Spec_eom Spec_green Spec_exact Spec_moments Spec_thermal Wick_proofs.
From Verif Require Extent_proofs Exact_proofs Moments_proofs.
Import ListNotations.
Open Scope list_scope.
Open Scope Z_scope.

(** * Sums and products *)
Definition rprod {A} (f : A -> R) (l : list A) : R := fold_right (fun p s => f p * s)%R 1%R l.
Lemma rprod_cons : forall A (f : A -> R) a l, rprod f (a :: l) = (f a * rprod f l)%R.
Proof. reflexivity. Qed.
Lemma rprod_ext : forall A (f g : A -> R) l, (forall p, In p l -> f p = g p) -> rprod f l = rprod g l.
Proof. intros A f g l H. induction l as [|a l IH]; [reflexivity|]. rewrite !rprod_cons, IH, (H a); [reflexivity|left; reflexivity|intros p P; apply H; right; exact P]. Qed.
Lemma rprod_one : forall A (f : A -> R) l, (forall p, In p l -> f p = 1%R) -> rprod f l = 1%R.
Proof. intros A f l H. induction l as [|a l IH]; [reflexivity|]. rewrite rprod_cons, IH, (H a); [ring|left; reflexivity|intros p P; apply H; right; exact P]. Qed.
Lemma rprod_zero : forall A (f : A -> R) l p, In p l -> f p = 0%R -> rprod f l = 0%R.
Proof. intros A f l p. induction l as [|a l IH]; intros I E; [destruct I|]. rewrite rprod_cons. destruct I as [-> |I]; [rewrite E; ring|rewrite IH by assumption; ring]. Qed.
Lemma rprod_lin : forall A (f g h : A -> R) a b l p0, NoDup l -> In p0 l -> f p0 = (a * g p0 + b * h p0)%R -> (forall p, p <> p0 -> f p = g p /\ f p = h p) ->
  rprod f l = (a * rprod g l + b * rprod h l)%R.
Proof.
  intros A f g h a b l p0 ND. induction ND as [|p l N ND IH]; intros I E H; [destruct I|]. rewrite !rprod_cons. destruct I as [-> |I].
  - rewrite E, <- (rprod_ext _ f g l), <- (rprod_ext _ f h l); [ring|intros q Q; apply H; intros ->; contradiction|intros q Q; apply H; intros ->; contradiction].
  - destruct (H p) as [E1 E2]; [intros ->; contradiction|]. rewrite (IH I E H), <- E1, <- E2. ring.
Qed.

Lemma Csum_cons : forall z l, Csum_list (z :: l) = Cadd z (Csum_list l).
Proof. reflexivity. Qed.
Lemma Csum_ext : forall A (f g : A -> C) l, (forall a, In a l -> f a = g a) -> Csum_list (map f l) = Csum_list (map g l).
Proof. intros A f g l H. f_equal. apply map_ext_in. exact H. Qed.
Lemma Csum_perm : forall A (f : A -> C) l l', Permutation l l' -> Csum_list (map f l) = Csum_list (map f l').
Proof.
  intros A f l l' P. induction P as [|x l l' _ IH|x y l|l l' l'' _ IH1 _ IH2]; cbn [map].
  - reflexivity.
  - rewrite !Csum_cons, IH. reflexivity.
  - rewrite !Csum_cons. ring.
  - congruence.
Qed.
Lemma Csum_pairs : forall A B (f : B -> C) (g h : A -> B) l, Csum_list (map f (flat_map (fun a => [g a; h a]) l)) = Csum_list (map (fun a => Cadd (f (g a)) (f (h a))) l).
Proof.
  intros A B f g h l. induction l as [|a l IH]; [reflexivity|]. cbn [flat_map app map]. rewrite !Csum_cons, IH. ring.
Qed.
Lemma Csum_add : forall A (f g : A -> C) l, Csum_list (map (fun a => Cadd (f a) (g a)) l) = Cadd (Csum_list (map f l)) (Csum_list (map g l)).
Proof. intros A f g l. induction l as [|a l IH]; cbn [map]; [cbn; ring|]. rewrite !Csum_cons, IH. ring. Qed.

(** * Words of phonon operators on the modes *)
Definition word := list (nat * Z * dagger).
Fixpoint sub (p : nat * Z) (w : word) : list dagger :=
  match w with
  | [] => []
  | (t, x, d) :: r => if (Nat.eqb t (fst p) && (x =? snd p))%bool then d :: sub p r else sub p r
  end.
Definition sg (d : dagger) : Z := match d with Plus => 1 | Minus => -1 end.

Lemma hit : forall t x, (Nat.eqb t t && (x =? x))%bool = true.
Proof. intros. rewrite Nat.eqb_refl, Z.eqb_refl. reflexivity. Qed.
Lemma miss : forall t x t' x', (t, x) <> (t', x') -> (Nat.eqb t t' && (x =? x'))%bool = false.
Proof. intros t x t' x' H. destruct (Nat.eqb_spec t t') as [->|]; [|reflexivity]. destruct (Z.eqb_spec x x') as [->|]; [exfalso; apply H; reflexivity|reflexivity]. Qed.
Lemma changed_hit : forall n t x e, changed n t x e t x = n t x + e.
Proof. intros. unfold changed. rewrite hit. reflexivity. Qed.
Lemma changed_miss : forall n t x e t' x', (t', x') <> (t, x) -> changed n t x e t' x' = n t' x'.
Proof. intros. unfold changed. rewrite miss by assumption. lia. Qed.
Lemma mode_dec : forall p q : nat * Z, p = q \/ p <> q.
Proof. intros p q. apply classic. Qed.

(** on the phonons [n], coefficient of the phonons [n0] *)
Definition val (L : list (nat * Z)) (w : word) (n0 n : placement) : R :=
  rprod (fun p => amp (n0 (fst p) (snd p)) (sub p w) (n (fst p) (snd p))) L.
Lemma val_plus : forall L t x w n0 n, val L ((t, x, Plus) :: w) n0 n = val L w n0 (changed n t x 1).
Proof.
  intros L t x w n0 n. apply rprod_ext. intros [t' x'] _. cbn [sub fst snd]. destruct (mode_dec (t', x') (t, x)) as [E|E].
  - injection E as -> ->. rewrite hit, changed_hit. reflexivity.
  - rewrite changed_miss, miss by congruence. reflexivity.
Qed.
Lemma val_minus : forall L t x w n0 n, NoDup L -> In (t, x) L -> val L ((t, x, Minus) :: w) n0 n = (IZR (n t x) * val L w n0 (changed n t x (-1)))%R.
Proof.
  intros L t x w n0 n ND I. rewrite <- (Rplus_0_r (IZR (n t x) * _)). rewrite <- (Rmult_0_l (val L w n0 (changed n t x (-1)))). apply (rprod_lin _ _ _ _ _ _ L (t, x) ND I).
  - cbn [sub fst snd]. rewrite hit, changed_hit. cbn [amp]. replace (n t x + -1) with (n t x - 1) by lia. ring.
  - intros [t' x'] E. cbn [sub fst snd]. rewrite changed_miss, miss by congruence. auto.
Qed.
Lemma val_here : forall L n0 n, (forall p, In p L -> n (fst p) (snd p) = n0 (fst p) (snd p)) -> val L [] n0 n = 1%R.
Proof. intros L n0 n H. apply rprod_one. intros p P. cbn [sub amp]. rewrite (H p P), Z.eqb_refl. reflexivity. Qed.
Lemma val_elsewhere : forall L n0 n p, In p L -> n (fst p) (snd p) <> n0 (fst p) (snd p) -> val L [] n0 n = 0%R.
Proof. intros L n0 n p I H. apply (rprod_zero _ _ L p I). cbn [sub amp]. destruct (Z.eqb_spec (n (fst p) (snd p)) (n0 (fst p) (snd p))); [contradiction|reflexivity]. Qed.

(** on the doubled phonons [n], coefficient of the vacuum *)
Definition valT (V Vt : nat -> R) (L : list (nat * Z)) (w : word) (n : placement) : R :=
  rprod (fun p => tfd (V (fst p)) (Vt (fst p)) (sub p w) (n (2 * fst p)%nat (snd p)) (n (S (2 * fst p)) (snd p))) L.
Lemma valT_plus : forall V Vt L t x w n, NoDup L -> In (t, x) L ->
  valT V Vt L ((t, x, Plus) :: w) n = (V t * valT V Vt L w (changed n (2 * t) x 1) + Vt t * IZR (n (S (2 * t)) x) * valT V Vt L w (changed n (S (2 * t)) x (-1)))%R.
Proof.
  intros V Vt L t x w n ND I. apply (rprod_lin _ _ _ _ _ _ L (t, x) ND I).
  - cbn [sub fst snd]. rewrite hit, !changed_hit. rewrite !changed_miss by (intros X; injection X; lia). cbn [tfd]. replace (n (S (2 * t)) x + -1) with (n (S (2 * t)) x - 1) by lia. reflexivity.
  - intros [t' x'] E. cbn [sub fst snd]. rewrite !changed_miss by (intros X; injection X; intros; apply E; f_equal; lia). rewrite miss by congruence. auto.
Qed.
Lemma valT_minus : forall V Vt L t x w n, NoDup L -> In (t, x) L ->
  valT V Vt L ((t, x, Minus) :: w) n = (V t * IZR (n (2 * t)%nat x) * valT V Vt L w (changed n (2 * t) x (-1)) + Vt t * valT V Vt L w (changed n (S (2 * t)) x 1))%R.
Proof.
  intros V Vt L t x w n ND I. apply (rprod_lin _ _ _ _ _ _ L (t, x) ND I).
  - cbn [sub fst snd]. rewrite hit, !changed_hit. rewrite !changed_miss by (intros X; injection X; lia). cbn [tfd]. replace (n (2 * t)%nat x + -1) with (n (2 * t)%nat x - 1) by lia. reflexivity.
  - intros [t' x'] E. cbn [sub fst snd]. rewrite !changed_miss by (intros X; injection X; intros; apply E; f_equal; lia). rewrite miss by congruence. auto.
Qed.

(** * The modes *)
Lemma in_sites : forall r x, In x (sites r) <-> Z.abs x <= r.
Proof.
  intros r x. unfold sites. rewrite in_map_iff. split.
  - intros (i & <- & I). apply in_seq in I. lia.
  - intros H. exists (Z.to_nat (x + r)). split; [lia|]. apply in_seq. lia.
Qed.
Lemma in_near : forall nt r t x, In (t, x) (near_modes nt r) <-> (t < nt)%nat /\ Z.abs x <= r.
Proof. intros nt r t x. unfold near_modes. rewrite in_prod_iff, in_seq, in_sites. intuition lia. Qed.
Lemma nodup_prod : forall A B (l : list A) (l' : list B), NoDup l -> NoDup l' -> NoDup (list_prod l l').
Proof.
  intros A B l l' H H'. induction H as [|a l N H IH]; [constructor|]. cbn [list_prod]. apply NoDup_app_remove_l with (l := []) || idtac.
  assert (G : forall m : list (A * B), NoDup m -> (forall b, ~ In (a, b) m) -> NoDup (map (fun y => (a, y)) l' ++ m)).
  { clear IH. intros m Nm Q. induction H' as [|b l' Nb H' IH']; [exact Nm|]. cbn [map app]. constructor; [|exact IH'].
    intros X. apply in_app_or in X as [X|X]; [|exact (Q b X)]. apply in_map_iff in X as (y & Y & I). injection Y as ->. contradiction. }
  apply G; [exact IH|]. intros b X. apply in_prod_iff in X as [X _]. contradiction.
Qed.
Lemma nodup_near : forall nt r, NoDup (near_modes nt r).
Proof.
  intros nt r. apply nodup_prod; [apply seq_NoDup|]. unfold sites. apply FinFun.Injective_map_NoDup; [intros i j; lia|apply seq_NoDup].
Qed.
Definition esum (om : nat -> R) (n : placement) (L : list (nat * Z)) : R := fold_right (fun p s => om (fst p) * IZR (n (fst p) (snd p)) + s)%R 0%R L.
Lemma esum_changed : forall om n t x e L, NoDup L -> In (t, x) L -> esum om (changed n t x e) L = (esum om n L + om t * IZR e)%R.
Proof.
  intros om n t x e L ND. induction ND as [|[t' x'] L N ND IH]; intros I; [destruct I|]. cbn [esum fold_right fst snd]. fold (esum om n L) (esum om (changed n t x e) L). destruct I as [E|I].
  - injection E as -> ->. rewrite changed_hit, plus_IZR. assert (Q : esum om (changed n t x e) L = esum om n L); [|rewrite Q; ring].
    clear IH ND. induction L as [|[t' x'] L IH]; [reflexivity|]. cbn [esum fold_right fst snd]. fold (esum om n L) (esum om (changed n t x e) L).
    rewrite changed_miss by (intros X; apply N; left; exact X). rewrite IH; [reflexivity|]. intros X. apply N. right. exact X.
  - rewrite (IH I), changed_miss by (intros X; rewrite X in N; contradiction). ring.
Qed.
Lemma energy_changed : forall m r n t x e, (t < m_ntypes m)%nat -> Z.abs x <= r -> energy m r (changed n t x e) = (energy m r n + freq_of m t * IZR e)%R.
Proof.
  intros m r n t x e Ht Hx. change (esum (freq_of m) (changed n t x e) (near_modes (m_ntypes m) r) = (esum (freq_of m) n (near_modes (m_ntypes m) r) + freq_of m t * IZR e)%R).
  apply esum_changed; [apply nodup_near|apply in_near; auto].
Qed.
Lemma near_changed : forall nt r n t x e, (t < nt)%nat -> Z.abs x <= r -> near nt r n -> near nt r (changed n t x e).
Proof.
  intros nt r n t x e Ht Hx H t' x' X. destruct (mode_dec (t', x') (t, x)) as [E|E]; [injection E as -> ->; auto|]. rewrite changed_miss in X by exact E. exact (H t' x' X).
Qed.
Lemma full_changed : forall m n t x e r, m_mps m = None -> (t < m_ntypes m)%nat -> Z.abs x <= r -> near (m_ntypes m) r n -> full m n -> 0 <= n t x + e -> full m (changed n t x e).
Proof.
  intros m n t x e r Hm Ht Hx Nr [F1 _] P. split; [|split].
  - intros t' x'. destruct (mode_dec (t', x') (t, x)) as [E|E]; [injection E as -> ->; rewrite changed_hit; exact P|]. rewrite changed_miss by exact E. apply F1.
  - exists r. apply near_changed; assumption.
  - intros k K. rewrite Hm in K. discriminate.
Qed.

(** * Histories: [ev q j e X] is the sum over what [q] applications of H do, [X]
    the value of the word of phonon operators, [e] the phonon energy so far *)
Section Histories.
Variable hs : list (hterm R).
Variable hop : R.
Variable om : nat -> R.
Variable c : Z.
Variable ph : Z -> C.
Fixpoint ev (q : nat) (j : Z) (e : R) (X : word -> C) : C :=
  match q with
  | O => Cmul (ph j) (X [])
  | S q => Csub (Csub (Cmul (RtoC e) (ev q j e X)) (Cmul (RtoC hop) (Cadd (ev q (j + 1) e X) (ev q (j - 1) e X))))
      (Csum_list (map (fun h => Cmul (RtoC (ht_coupling h))
        (ev q (target h j) (e + om (ht_index h) * IZR (sg (ht_dag h)))%R (fun w => X ((ht_index h, mode c h j, ht_dag h) :: w)))) hs))
  end.
Lemma ev_ext : forall q j e X Y, (forall w, X w = Y w) -> ev q j e X = ev q j e Y.
Proof. intros q j e X Y H. replace Y with X; [reflexivity|]. apply functional_extensionality. exact H. Qed.
Lemma ev_scal : forall q j e a X, ev q j e (fun w => Cmul a (X w)) = Cmul a (ev q j e X).
Proof.
  induction q as [|q IH]; intros j e a X; cbn [ev]; [ring|]. rewrite !IH.
  rewrite (Csum_ext _ _ (fun h => Cmul a (Cmul (RtoC (ht_coupling h)) (ev q (target h j) (e + om (ht_index h) * IZR (sg (ht_dag h)))%R (fun w => X ((ht_index h, mode c h j, ht_dag h) :: w)))))).
  - rewrite Extent_proofs.Csum_list_scal. ring.
  - intros h _. rewrite (IH _ _ a (fun w => X ((ht_index h, mode c h j, ht_dag h) :: w))). ring.
Qed.
Lemma ev_add : forall q j e X Y, ev q j e (fun w => Cadd (X w) (Y w)) = Cadd (ev q j e X) (ev q j e Y).
Proof.
  induction q as [|q IH]; intros j e X Y; cbn [ev]; [ring|]. rewrite !IH.
  rewrite (Csum_ext _ _ (fun h => Cadd (Cmul (RtoC (ht_coupling h)) (ev q (target h j) (e + om (ht_index h) * IZR (sg (ht_dag h)))%R (fun w => X ((ht_index h, mode c h j, ht_dag h) :: w))))
    (Cmul (RtoC (ht_coupling h)) (ev q (target h j) (e + om (ht_index h) * IZR (sg (ht_dag h)))%R (fun w => Y ((ht_index h, mode c h j, ht_dag h) :: w)))))).
  - rewrite Csum_add. ring.
  - intros h _. rewrite (IH _ _ (fun w => X ((ht_index h, mode c h j, ht_dag h) :: w))). ring.
Qed.
Lemma ev_0 : forall q j e, ev q j e (fun _ => C0) = C0.
Proof. intros q j e. rewrite (ev_ext q j e _ (fun w => Cmul C0 ((fun _ => C0) w))) by (intros; ring). rewrite ev_scal. ring. Qed.
End Histories.

Lemma RtoC_mul : forall a b, RtoC (a * b) = Cmul (RtoC a) (RtoC b).
Proof. intros. apply Ceq; cbn; ring. Qed.
Lemma RtoC_add : forall a b, RtoC (a + b) = Cadd (RtoC a) (RtoC b).
Proof. intros. apply Ceq; cbn; ring. Qed.
Lemma RtoC_0 : RtoC 0 = C0. Proof. reflexivity. Qed.
Lemma RtoC_1 : RtoC 1 = C1. Proof. reflexivity. Qed.

(** No operator reaches further than [J] sites. *)
Definition range (c : Z) (hs : list (hterm R)) (J : Z) : Prop :=
  1 <= J /\ forall h j, In h hs -> Z.abs (target h j - j) <= J /\ Z.abs (mode c h j - j) <= J.
Lemma range_ex : forall c hs, exists J, range c hs J.
Proof.
  intros c hs. induction hs as [|h hs (J & J1 & IH)]; [exists 1; split; [lia|intros h j []]|].
  exists (Z.max J (Z.max (Z.abs (psi1 h / 2)) (Z.abs ((phi1 h - psi1 h - c) / 2)))). split; [lia|]. intros h' j [<- |I].
  - unfold target, mode. lia.
  - specialize (IH h' j I). lia.
Qed.

(** * The thermal side *)
Section Row.
Variable m : model R.
Variable c : Z.
Variable k : R.
Hypothesis Hmps : m_mps m = None.
Hypothesis Hidx : forall h, In h (h_terms (m_ham m)) -> (ht_index h < m_ntypes m)%nat.
Variable J : Z.
Hypothesis HJ : range c (h_terms (m_ham m)) J.
Let nt := m_ntypes m.
Let om := freq_of m.
Let phase (j : Z) : C := Cexpi (- (k * m_lattice m * IZR j)).
Notation EV := (ev (h_terms (m_ham m)) (h_hop (m_ham m)) om c phase).

Lemma row_words : forall n0 mu W, thermal_row m c k n0 mu -> near nt W n0 -> forall q n j, full m n -> near nt W n -> Z.abs j + Z.of_nat q * J <= W ->
  mu q n j = EV q j (energy m W n - energy m W n0)%R (fun w => RtoC (val (near_modes nt W) w n0 n)).
Proof.
  intros n0 mu W Row N0. destruct HJ as [J1 HR]. induction q as [|q IH]; intros n j F Nn B.
  - cbn [ev]. destruct (classic (exists t x, n t x <> n0 t x)) as [(t & x & D)|D].
    + rewrite (tr_other _ _ _ _ _ Row n j F) by (exists t, x; exact D).
      assert (I : In (t, x) (near_modes nt W)).
      { apply in_near. destruct (Z.eq_dec (n t x) 0) as [E|E]; [|exact (Nn t x E)]. apply (N0 t x). intros E'. apply D. congruence. }
      rewrite (val_elsewhere _ n0 n (t, x) I D), RtoC_0. ring.
    + assert (E : n = n0) by (apply functional_extensionality; intros t; apply functional_extensionality; intros x; apply NNPP; intros X; apply D; exists t, x; exact X).
      subst n. rewrite (tr_start _ _ _ _ _ Row), val_here by auto. fold (phase j). rewrite RtoC_1. ring.
  - rewrite (tr_next _ _ _ _ _ Row q n W j F Nn N0). cbn [ev]. unfold on_H.
    rewrite (IH n j F Nn), (IH n (j + 1) F Nn), (IH n (j - 1) F Nn) by lia. f_equal. apply Csum_ext. intros h Hh.
    pose proof (Hidx h Hh) as Hi. destruct (HR h j Hh) as [R1 R2]. set (x := mode c h j). assert (Hx : Z.abs x <= W) by (unfold x; lia).
    assert (I : In (ht_index h, x) (near_modes nt W)) by (apply in_near; auto).
    unfold factor, after. fold x. destruct (ht_dag h); cbn [sg].
    + rewrite IH; [|apply (full_changed m n _ _ _ W); auto; destruct F as [F _]; specialize (F (ht_index h) x); lia|apply near_changed; auto|lia].
      rewrite energy_changed by auto. fold om. rewrite Rmult_1_r. f_equal.
      rewrite (ev_ext _ _ _ _ _ q (target h j) _ (fun w => RtoC (val (near_modes nt W) ((ht_index h, x, Plus) :: w) n0 n)) (fun w => RtoC (val (near_modes nt W) w n0 (changed n (ht_index h) x 1)))) by (intros w; rewrite val_plus; reflexivity).
      f_equal. ring.
    + rewrite (ev_ext _ _ _ _ _ q (target h j) _ (fun w => RtoC (val (near_modes nt W) ((ht_index h, x, Minus) :: w) n0 n)) (fun w => Cmul (RtoC (IZR (n (ht_index h) x))) (RtoC (val (near_modes nt W) w n0 (changed n (ht_index h) x (-1)))))).
      2:{ intros w. rewrite val_minus by (auto; apply nodup_near). apply RtoC_mul. }
      rewrite ev_scal, RtoC_mul. destruct (Z.eq_dec (n (ht_index h) x) 0) as [E|E].
      * rewrite E. rewrite RtoC_0. ring.
      * assert (P : 0 <= n (ht_index h) x) by apply (proj1 F).
        rewrite IH; [|apply (full_changed m n _ _ _ W); auto; lia|apply near_changed; auto|lia].
        rewrite energy_changed by auto. fold om.
        replace (energy m W n + om (ht_index h) * -1 - energy m W n0)%R with (energy m W n - energy m W n0 + om (ht_index h) * -1)%R by ring. ring.
Qed.
End Row.

(** * The thermofield side *)
(** [mT] is the thermofield double of [m]. *)
Record double (m mT : model R) (V Vt : nat -> R) : Prop := {
  db_lat : m_lattice mT = m_lattice m; db_hop : h_hop (m_ham mT) = h_hop (m_ham m); db_mps : m_mps mT = None;
  db_nt : m_ntypes mT = (2 * m_ntypes m)%nat;
  db_fr : forall t, (t < m_ntypes m)%nat -> freq_of mT (2 * t) = freq_of m t /\ freq_of mT (S (2 * t)) = (- freq_of m t)%R;
  db_terms : exists l, Permutation (h_terms (m_ham mT)) (flat_map (fun p => [fst p; snd p]) l) /\
    Forall2 (fun h p => ht_psi (fst p) = ht_psi h /\ ht_phi (fst p) = ht_phi h /\ ht_dag (fst p) = ht_dag h /\ ht_index (fst p) = (2 * ht_index h)%nat /\ ht_coupling (fst p) = (ht_coupling h * V (ht_index h))%R /\
      ht_psi (snd p) = ht_psi h /\ ht_phi (snd p) = ht_phi h /\ ht_dag (snd p) = flipped (ht_dag h) /\ ht_index (snd p) = S (2 * ht_index h) /\ ht_coupling (snd p) = (ht_coupling h * Vt (ht_index h))%R) (h_terms (m_ham m)) l }.

Section Double.
Variables (m mT : model R) (V Vt : nat -> R).
Hypothesis Db : double m mT V Vt.
Variable c : Z.
Variable k : R.
Hypothesis Hidx : forall h, In h (h_terms (m_ham m)) -> (ht_index h < m_ntypes m)%nat.
Variable J : Z.
Hypothesis HJ : range c (h_terms (m_ham m)) J.
Let nt := m_ntypes m.
Let om := freq_of m.
Let phase (j : Z) : C := Cexpi (- (k * m_lattice m * IZR j)).
Notation EV := (ev (h_terms (m_ham m)) (h_hop (m_ham m)) om c phase).

Lemma sum_forall2 : forall A B (P : A -> B -> Prop) (f : A -> C) (g : B -> C) l l', Forall2 P l l' -> (forall a b, In a l -> P a b -> f a = g b) -> Csum_list (map f l) = Csum_list (map g l').
Proof.
  intros A B P f g l l' H. induction H as [|a b l l' H _ IH]; intros Q; [reflexivity|]. cbn [map]. rewrite !Csum_cons, (Q a b), IH; [reflexivity| |left; reflexivity|exact H].
  intros a' b' I. apply Q. right. exact I.
Qed.
Lemma target_eq : forall (h h' : hterm R) j, ht_psi h' = ht_psi h -> target h' j = target h j.
Proof. intros h h' j E. unfold target, psi1. rewrite E. reflexivity. Qed.
Lemma mode_eq : forall (h h' : hterm R) j, ht_psi h' = ht_psi h -> ht_phi h' = ht_phi h -> mode c h' j = mode c h j.
Proof. intros h h' j E E'. unfold mode, psi1, phi1. rewrite E, E'. reflexivity. Qed.

Lemma double_words : forall mu W, moments mT c k mu -> forall q n j, full mT n -> near (m_ntypes mT) W n -> Z.abs j + Z.of_nat q * J <= W ->
  mu q n j = EV q j (energy mT W n) (fun w => RtoC (valT V Vt (near_modes nt W) w n)).
Proof.
  intros mu W Mu. destruct HJ as [J1 HR]. pose proof (db_nt _ _ _ _ Db) as Ent. induction q as [|q IH]; intros n j F Nn B.
  - cbn [ev]. destruct (classic (exists t x, n t x <> 0)) as [(t & x & D)|D].
    + rewrite (mo_phonons _ _ _ _ Mu n j) by (exists t, x; exact D). destruct (Nn t x D) as [Lt Lx]. rewrite Ent in Lt.
      unfold valT. rewrite (rprod_zero _ _ _ (Nat.div2 t, x)).
      * rewrite RtoC_0. ring.
      * apply in_near. split; [|exact Lx]. rewrite Nat.div2_div. apply Nat.div_lt_upper_bound; [lia|exact Lt].
      * cbn [sub fst snd tfd]. destruct (Nat.Even_or_Odd t) as [E|E].
        -- apply Nat.Even_double in E. unfold Nat.double in E. replace (2 * Nat.div2 t)%nat with t by lia. destruct (Z.eqb_spec (n t x) 0); [contradiction|reflexivity].
        -- apply Nat.Odd_double in E. unfold Nat.double in E. replace (S (2 * Nat.div2 t)) with t by lia. destruct (Z.eqb_spec (n t x) 0); [contradiction|]. rewrite andb_false_r. reflexivity.
    + assert (E : n = vacuum) by (apply functional_extensionality; intros t; apply functional_extensionality; intros x; apply NNPP; intros X; apply D; exists t, x; exact X).
      subst n. rewrite (mo_start _ _ _ _ Mu). rewrite (db_lat _ _ _ _ Db). fold (phase j). unfold valT. rewrite rprod_one by (intros p _; reflexivity). rewrite RtoC_1. ring.
  - rewrite (mo_next _ _ _ _ Mu q n W j F Nn). cbn [ev]. unfold on_H. rewrite (db_hop _ _ _ _ Db).
    rewrite (IH n j F Nn), (IH n (j + 1) F Nn), (IH n (j - 1) F Nn) by lia. f_equal.
    destruct (db_terms _ _ _ _ Db) as (l & Pl & Fl). rewrite (Csum_perm _ _ _ _ Pl), Csum_pairs. symmetry. apply (sum_forall2 _ _ _ _ _ _ _ Fl).
    intros h [h1 h2] Hh (A1 & A2 & A3 & A4 & A5 & B1 & B2 & B3 & B4 & B5). cbn [fst snd] in *.
    rewrite (target_eq h h1), (target_eq h h2) by assumption. unfold factor, after. rewrite (mode_eq h h1), (mode_eq h h2), A3, A4, A5, B3, B4, B5 by assumption.
    pose proof (Hidx h Hh) as Hi. destruct (HR h j Hh) as [R1 R2]. set (x := mode c h j). assert (Hx : Z.abs x <= W) by (unfold x; lia).
    assert (I : In (ht_index h, x) (near_modes nt W)) by (apply in_near; auto). destruct (db_fr _ _ _ _ Db _ Hi) as [F1 F2]. set (t := ht_index h) in *.
    assert (T1 : (2 * t < m_ntypes mT)%nat) by lia. assert (T2 : (S (2 * t) < m_ntypes mT)%nat) by lia.
    pose proof (db_mps _ _ _ _ Db) as Hmps. pose proof (proj1 F (2 * t)%nat x) as P1. pose proof (proj1 F (S (2 * t)) x) as P2.
    destruct (ht_dag h); cbn [sg flipped].
    + rewrite (ev_ext _ _ _ _ _ q (target h j) _ (fun w => RtoC (valT V Vt (near_modes nt W) ((t, x, Plus) :: w) n))
        (fun w => Cadd (Cmul (RtoC (V t)) (RtoC (valT V Vt (near_modes nt W) w (changed n (2 * t) x 1)))) (Cmul (RtoC (Vt t * IZR (n (S (2 * t)) x))) (RtoC (valT V Vt (near_modes nt W) w (changed n (S (2 * t)) x (-1))))))).
      2:{ intros w. rewrite valT_plus by (auto; apply nodup_near). rewrite RtoC_add, !RtoC_mul. reflexivity. }
      rewrite ev_add, !ev_scal. rewrite (IH (changed n (2 * t) x 1)); [|apply (full_changed mT n _ _ _ W); auto; lia|apply near_changed; auto|lia].
      rewrite energy_changed, F1 by auto. fold om. fold nt. rewrite !RtoC_mul, RtoC_1.
      destruct (Z.eq_dec (n (S (2 * t)) x) 0) as [E|E].
      * rewrite E, RtoC_0. ring.
      * rewrite (IH (changed n (S (2 * t)) x (-1))); [|apply (full_changed mT n _ _ _ W); auto; lia|apply near_changed; auto|lia].
        rewrite energy_changed, F2 by auto. fold om. replace (energy mT W n + - om t * -1)%R with (energy mT W n + om t * 1)%R by ring. fold nt. ring.
    + rewrite (ev_ext _ _ _ _ _ q (target h j) _ (fun w => RtoC (valT V Vt (near_modes nt W) ((t, x, Minus) :: w) n))
        (fun w => Cadd (Cmul (RtoC (V t * IZR (n (2 * t)%nat x))) (RtoC (valT V Vt (near_modes nt W) w (changed n (2 * t) x (-1))))) (Cmul (RtoC (Vt t)) (RtoC (valT V Vt (near_modes nt W) w (changed n (S (2 * t)) x 1)))))).
      2:{ intros w. rewrite valT_minus by (auto; apply nodup_near). rewrite RtoC_add, !RtoC_mul. reflexivity. }
      rewrite ev_add, !ev_scal. rewrite (IH (changed n (S (2 * t)) x 1)); [|apply (full_changed mT n _ _ _ W); auto; lia|apply near_changed; auto|lia].
      rewrite energy_changed, F2 by auto. fold om. replace (energy mT W n + - om t * 1)%R with (energy mT W n + om t * -1)%R by ring. fold nt. rewrite !RtoC_mul, RtoC_1.
      destruct (Z.eq_dec (n (2 * t)%nat x) 0) as [E|E].
      * rewrite E, RtoC_0. ring.
      * rewrite (IH (changed n (2 * t) x (-1))); [|apply (full_changed mT n _ _ _ W); auto; lia|apply near_changed; auto|lia].
        rewrite energy_changed, F1 by auto. fold om. fold nt. ring.
Qed.
End Double.

(** * Averages *)
Lemma sums_ext : forall f g s, (forall i, f i = g i) -> sums_to f s -> sums_to g s.
Proof. intros f g s H [A B]. replace g with f; [split; assumption|]. apply functional_extensionality. exact H. Qed.
Lemma inf_lin : forall a b f g s s', infinite_sum f s -> infinite_sum g s' -> infinite_sum (fun i => a * f i + b * g i)%R (a * s + b * s')%R.
Proof.
  intros a b f g s s' H H'. change (Un_cv (sum_f_R0 (fun i => a * f i + b * g i)%R) (a * s + b * s')).
  assert (E : forall N, sum_f_R0 (fun i => a * f i + b * g i)%R N = (a * sum_f_R0 f N + b * sum_f_R0 g N)%R) by (induction N as [|N IH]; cbn [sum_f_R0]; [reflexivity|rewrite IH; ring]).
  apply (Un_cv_ext (fun N => a * sum_f_R0 f N + b * sum_f_R0 g N)%R); [intros N; symmetry; apply E|].
  apply CV_plus; apply CV_mult; try assumption; intros e He; exists 0%nat; intros; unfold R_dist; rewrite Rminus_diag_eq, Rabs_R0; trivial.
Qed.
Lemma sums_lin : forall a f g s s', sums_to f s -> sums_to g s' -> sums_to (fun i => Cadd (Cmul a (f i)) (g i)) (Cadd (Cmul a s) s').
Proof.
  intros a f g s s' [F1 F2] [G1 G2]. split; cbn.
  - pose proof (inf_lin 1 1 _ _ _ _ (inf_lin (Re a) (- Im a) _ _ _ _ F1 F2) G1) as H.
    replace (Re a * Re s - Im a * Im s + Re s')%R with (1 * (Re a * Re s + - Im a * Im s) + 1 * Re s')%R by ring.
    eapply (fun X => eq_ind _ (fun h => infinite_sum h _) H _ X). apply functional_extensionality. intros i. cbn. ring.
  - pose proof (inf_lin 1 1 _ _ _ _ (inf_lin (Re a) (Im a) _ _ _ _ F2 F1) G2) as H.
    replace (Re a * Im s + Im a * Re s + Im s')%R with (1 * (Re a * Im s + Im a * Re s) + 1 * Im s')%R by ring.
    eapply (fun X => eq_ind _ (fun h => infinite_sum h _) H _ X). apply functional_extensionality. intros i. cbn. ring.
Qed.
Lemma sums_unique : forall f s s', sums_to f s -> sums_to f s' -> s = s'.
Proof. intros f s s' [A B] [A' B']. apply Ceq; eapply uniqueness_sum; eassumption. Qed.

Section Average.
Variable T : R.
Variable om : nat -> R.
Notation avg := (average T om).

Lemma avg_unique : forall L f n s s', avg L f n s -> avg L f n s' -> s = s'.
Proof.
  induction L as [|[t x] L IH]; intros f n s s' A A'; cbn [average] in *; [congruence|].
  destruct A as (g & G & S). destruct A' as (g' & G' & S'). apply (sums_unique _ s s' S). eapply sums_ext; [|exact S'].
  intros i. cbv beta. rewrite (IH f _ _ _ (G i) (G' i)). reflexivity.
Qed.
Lemma avg_lin : forall L a f g n s s', avg L f n s -> avg L g n s' -> avg L (fun n => Cadd (Cmul a (f n)) (g n)) n (Cadd (Cmul a s) s').
Proof.
  induction L as [|[t x] L IH]; intros a f g n s s' A A'; cbn [average] in *; [congruence|].
  destruct A as (u & U & S). destruct A' as (u' & U' & S'). exists (fun i => Cadd (Cmul a (u i)) (u' i)). split; [intros i; apply IH; auto|].
  eapply sums_ext; [|exact (sums_lin a _ _ _ _ S S')]. intros i. cbv beta. ring.
Qed.
Definition agree (L : list (nat * Z)) (n n' : placement) : Prop := (forall t x, ~ In (t, x) L -> n' t x = n t x) /\ (forall t x, In (t, x) L -> 0 <= n' t x).
Lemma avg_ext : forall L f g n s, (forall n', agree L n n' -> f n' = g n') -> avg L f n s -> avg L g n s.
Proof.
  induction L as [|[t x] L IH]; intros f g n s H A; cbn [average] in *.
  - rewrite A. apply H. split; [reflexivity|intros t x []].
  - destruct A as (u & U & S). exists u. split; [|exact S]. intros i. apply (IH f g); [|apply U]. intros n' [A1 A2]. apply H. split.
    + intros t' x' N. rewrite A1 by (intros I; apply N; right; exact I). unfold with_phonons. rewrite miss; [reflexivity|]. intros E. apply N. left. congruence.
    + intros t' x' [E|I]; [|apply A2; exact I]. injection E as -> ->. destruct (classic (In (t', x') L)) as [I|I]; [apply A2; exact I|]. rewrite A1 by exact I. unfold with_phonons. rewrite hit. lia.
Qed.
Lemma sums_0 : sums_to (fun _ => C0) C0.
Proof. assert (Z0 : infinite_sum (fun _ : nat => 0%R) 0%R); [|split; exact Z0]. intros e He. exists 0%nat. intros N _. rewrite sum_eq_R0 by reflexivity. unfold R_dist. rewrite Rminus_diag_eq, Rabs_R0; trivial. Qed.
Lemma avg_0 : forall L n, avg L (fun _ => C0) n C0.
Proof.
  induction L as [|[t x] L IH]; intros n; cbn [average]; [reflexivity|]. exists (fun _ => C0). split; [intros i; apply IH|].
  eapply sums_ext; [|exact sums_0]. intros i. cbv beta. ring.
Qed.
Lemma avg_scal : forall L a f n s, avg L f n s -> avg L (fun n => Cmul a (f n)) n (Cmul a s).
Proof.
  intros L a f n s A. replace (Cmul a s) with (Cadd (Cmul a s) C0) by ring. eapply avg_ext; [|exact (avg_lin L a f _ n s C0 A (avg_0 L n))]. intros n' _. cbv beta. ring.
Qed.
Lemma avg_add : forall L f g n s s', avg L f n s -> avg L g n s' -> avg L (fun n => Cadd (f n) (g n)) n (Cadd s s').
Proof. intros L f g n s s' A A'. replace (Cadd s s') with (Cadd (Cmul C1 s) s') by ring. eapply avg_ext; [|exact (avg_lin L C1 f g n s s' A A')]. intros n' _. cbv beta. ring. Qed.
Lemma avg_sub : forall L f g n s s', avg L f n s -> avg L g n s' -> avg L (fun n => Csub (f n) (g n)) n (Csub s s').
Proof. intros L f g n s s' A A'. replace (Csub s s') with (Cadd s (Cmul (Copp C1) s')) by ring. eapply avg_ext; [|exact (avg_add L _ _ n s _ A (avg_scal L (Copp C1) g n s' A'))]. intros n' _. cbv beta. ring. Qed.
Lemma avg_sum : forall A (l : list A) L (f : placement -> A -> C) (s : A -> C) n, (forall a, In a l -> avg L (fun n => f n a) n (s a)) -> avg L (fun n => Csum_list (map (f n) l)) n (Csum_list (map s l)).
Proof.
  intros A l L f s n. induction l as [|a l IH]; intros H; cbn [map]; [apply avg_0|]. rewrite Csum_cons.
  apply (avg_add L (fun n => f n a) (fun n => Csum_list (map (f n) l))); [apply H; left; reflexivity|apply IH; intros b B; apply H; right; exact B].
Qed.
Lemma avg_ev : forall hs hop e1 c ph L n q j e (X : placement -> word -> C) Y, (forall w, avg L (fun n0 => X n0 w) n (Y w)) ->
  avg L (fun n0 => ev hs hop e1 c ph q j e (X n0)) n (ev hs hop e1 c ph q j e Y).
Proof.
  intros hs hop e1 c ph L n. induction q as [|q IH]; intros j e X Y H; cbn [ev]; [apply avg_scal, H|].
  apply (avg_sub L); [apply (avg_sub L)|].
  - apply avg_scal, IH, H.
  - apply avg_scal. apply (avg_add L); apply IH, H.
  - apply avg_sum. intros h _. apply avg_scal. apply IH. intros w. apply H.
Qed.
Lemma avg_prod : forall L (F : nat * Z -> Z -> R) (S : nat * Z -> R) n, NoDup L ->
  (forall p, In p L -> infinite_sum (fun i => boltzmann T (om (fst p)) i * F p (Z.of_nat i))%R (S p)) ->
  avg L (fun n0 => RtoC (rprod (fun p => F p (n0 (fst p) (snd p))) L)) n (RtoC (rprod S L)).
Proof.
  induction L as [|[t x] L IH]; intros F S n ND H; cbn [average]; [reflexivity|]. inversion ND as [|p l N ND' Ep]; subst.
  exists (fun i => Cmul (RtoC (F (t, x) (Z.of_nat i))) (RtoC (rprod S L))). split.
  - intros i. eapply avg_ext; [|apply avg_scal; apply (IH F S (with_phonons n t x i) ND')].
    + intros n' [A1 _]. cbv beta. rewrite rprod_cons, RtoC_mul. cbn [fst snd]. rewrite A1 by exact N. unfold with_phonons. rewrite hit. reflexivity.
    + intros p P. apply H. right. exact P.
  - pose proof (H (t, x) (or_introl eq_refl)) as B. cbn [fst] in B. rewrite rprod_cons.
    pose proof (inf_lin (rprod S L) 0 _ _ _ _ B B) as B'. split; cbn.
    + replace (S (t, x) * rprod S L)%R with (rprod S L * S (t, x) + 0 * S (t, x))%R by ring. eapply (fun X => eq_ind _ (fun h => infinite_sum h _) B' _ X). apply functional_extensionality. intros i. ring.
    + pose proof (inf_lin 0 0 _ _ _ _ B B) as B0. replace (infinite_sum _ 0) with (infinite_sum (fun i => 0 * (boltzmann T (om t) i * F (t, x) (Z.of_nat i)) + 0 * (boltzmann T (om t) i * F (t, x) (Z.of_nat i)))%R (0 * S (t, x) + 0 * S (t, x))%R); [exact B0|].
      f_equal; [apply functional_extensionality; intros i; ring|ring].
Qed.
End Average.

(** * Moments at a temperature *)
Lemma boltzmann_pow : forall T om i, boltzmann T om i = ((1 - exp (- (om / T))) * exp (- (om / T)) ^ i)%R.
Proof.
  intros T om i. unfold boltzmann. f_equal. induction i as [|i IH]; [cbn [pow INR]; replace (- (0 * om / T))%R with 0%R by (unfold Rdiv; ring); apply exp_0|].
  cbn [pow]. rewrite <- IH, <- exp_plus. f_equal. rewrite S_INR. unfold Rdiv. ring.
Qed.
Definition bogoliubov (m : model R) (T : R) (V Vt : nat -> R) : Prop := forall t, (t < m_ntypes m)%nat -> (0 < freq_of m t)%R /\
  (V t * V t = 1 / (1 - exp (- (freq_of m t / T))))%R /\ (Vt t * Vt t = exp (- (freq_of m t / T)) / (1 - exp (- (freq_of m t / T))))%R.

Theorem double_thermal : forall m mT V Vt T c k mu q, (0 < T)%R -> double m mT V Vt -> bogoliubov m T V Vt -> m_mps m = None ->
  (forall h, In h (h_terms (m_ham m)) -> (ht_index h < m_ntypes m)%nat) -> moments mT c k mu -> thermal_moment m T c k q (mu q vacuum 0).
Proof.
  intros m mT V Vt T c k mu q HT Db Bo Hm Hi Mu. destruct (range_ex c (h_terms (m_ham m))) as [J HJ]. exists (Z.of_nat q * J). intros r nu Hr Rows.
  assert (FV : full mT vacuum). { split; [intros; unfold vacuum; lia|]. split; [exists 0; intros t x X; exfalso; apply X; reflexivity|]. intros i E. rewrite (db_mps _ _ _ _ Db) in E. discriminate. }
  assert (NV : near (m_ntypes mT) r vacuum) by (intros t x X; exfalso; apply X; reflexivity).
  rewrite (double_words m mT V Vt Db c k Hi J HJ mu r Mu q vacuum 0 FV NV) by lia. rewrite Exact_proofs.energy_vacuum.
  eapply avg_ext; [|apply avg_ev with (X := fun n0 w => RtoC (val (near_modes (m_ntypes m) r) w n0 n0))].
  - intros n' [A1 A2]. cbv beta. assert (Nn : near (m_ntypes m) r n'). { intros t x X. apply in_near. apply NNPP. intros N. apply X. rewrite A1 by exact N. reflexivity. }
    assert (F : full m n'). { split; [|split; [exists r; exact Nn|intros i E; rewrite Hm in E; discriminate]]. intros t x. destruct (classic (In (t, x) (near_modes (m_ntypes m) r))) as [I|I]; [apply A2, I|rewrite A1 by exact I; unfold vacuum; lia]. }
    rewrite (row_words m c k Hm Hi J HJ n' (nu n') r (Rows n' F) Nn q n' 0 F Nn) by lia. rewrite Rminus_diag_eq by reflexivity. reflexivity.
  - intros w. unfold val, valT. apply (avg_prod T (freq_of m) (near_modes (m_ntypes m) r) (fun p i => amp i (sub p w) i) (fun p => tfd (V (fst p)) (Vt (fst p)) (sub p w) 0 0)); [apply nodup_near|].
    intros [t x] P. apply in_near in P as [Ht _]. cbn [fst snd]. destruct (Bo t Ht) as (B0 & B1 & B2).
    assert (X0 : (0 < exp (- (freq_of m t / T)))%R) by apply exp_pos.
    assert (X1 : (exp (- (freq_of m t / T)) < 1)%R). { rewrite <- exp_0 at 1. apply exp_increasing. assert (0 < freq_of m t / T)%R by (apply Rdiv_lt_0_compat; assumption). lra. }
    eapply (fun X => eq_ind _ (fun h => infinite_sum h _) (wick_sum _ X0 X1 _ _ (sub (t, x) w) B1 B2) _ X). apply functional_extensionality. intros i. rewrite boltzmann_pow. reflexivity.
Qed.

(** * The functionals exist and are unique *)
Section Defined.
Variable m : model R.
Variable c : Z.
Variable k : R.
Variable n0 : placement.
Hypothesis F0 : full m n0.
Let nt := m_ntypes m.
Let excess r n := (energy m r n - energy m r n0)%R.
Lemma excess_window : forall r r' n, near nt r n -> near nt r n0 -> near nt r' n -> near nt r' n0 -> excess r n = excess r' n.
Proof. intros r r' n A B A' B'. unfold excess. rewrite (Exact_proofs.energy_window m r r' n A A'), (Exact_proofs.energy_window m r r' n0 B B'). reflexivity. Qed.
Lemma near_both : forall n, full m n -> exists r, near nt r n /\ near nt r n0.
Proof.
  intros n (_ & [r H] & _). destruct F0 as (_ & [r' H'] & _). exists (Z.max r r'). split; intros t x X; [destruct (H t x X)|destruct (H' t x X)]; split; auto; lia.
Qed.
Definition first (n : placement) (j : Z) (z : C) : Prop := (n = n0 /\ z = Cexpi (- (k * m_lattice m * IZR j))) \/ (n <> n0 /\ z = C0).
Definition next (F : placement -> Z -> C) (n : placement) (j : Z) (z : C) : Prop :=
  (full m n /\ forall r, near nt r n -> near nt r n0 -> z = on_H m c (excess r n) F n j) \/ (~ full m n /\ z = C0).
Fixpoint isrow (q : nat) (F : placement -> Z -> C) : Prop :=
  match q with O => forall n j, first n j (F n j) | S q => exists G, isrow q G /\ forall n j, next G n j (F n j) end.
Lemma first_unique : forall n j z z', first n j z -> first n j z' -> z = z'.
Proof. intros n j z z' [[A B]|[A B]] [[A' B']|[A' B']]; try contradiction; congruence. Qed.
Lemma next_unique : forall F n j z z', next F n j z -> next F n j z' -> z = z'.
Proof. intros F n j z z' [[A B]|[A B]] [[A' B']|[A' B']]; try contradiction; [|congruence]. destruct (near_both n A) as (r & R1 & R2). rewrite (B r R1 R2), (B' r R1 R2). reflexivity. Qed.
Lemma isrow_unique : forall q F F', isrow q F -> isrow q F' -> F = F'.
Proof.
  induction q as [|q IH]; intros F F' H H'; apply functional_extensionality; intros n; apply functional_extensionality; intros j; cbn [isrow] in *.
  - exact (first_unique n j _ _ (H n j) (H' n j)).
  - destruct H as (G & A & B). destruct H' as (G' & A' & B'). rewrite (IH G' G A' A) in B'. exact (next_unique G n j _ _ (B n j) (B' n j)).
Qed.
Lemma isrow_ex : forall q, exists F, isrow q F.
Proof.
  induction q as [|q (G & IH)].
  - destruct (Exact_proofs.complex_choice (fun p z => first (fst p) (snd p) z)) as [f Hf].
    + intros [n j]. destruct (classic (n = n0)) as [E|E]; [exists (Cexpi (- (k * m_lattice m * IZR j))); left; auto|exists C0; right; auto].
    + intros [n j]. apply first_unique.
    + exists (fun n j => f (n, j)). intros n j. exact (Hf (n, j)).
  - destruct (Exact_proofs.complex_choice (fun p z => next G (fst p) (snd p) z)) as [f Hf].
    + intros [n j]. cbn [fst snd]. destruct (classic (full m n)) as [E|E]; [|exists C0; right; auto]. destruct (near_both n E) as (r & R1 & R2).
      exists (on_H m c (excess r n) G n j). left. split; [exact E|]. intros r' Q1 Q2. rewrite (excess_window r r' n) by assumption. reflexivity.
    + intros [n j]. apply next_unique.
    + exists (fun n j => f (n, j)). exists G. split; [exact IH|]. intros n j. exact (Hf (n, j)).
Qed.
Theorem row_ex : exists mu, thermal_row m c k n0 mu.
Proof.
  destruct (Exact_proofs.complex_choice (fun (p : nat * (placement * Z)) z => exists F, isrow (fst p) F /\ z = F (fst (snd p)) (snd (snd p)))) as [f Hf].
  - intros [q [n j]]. destruct (isrow_ex q) as [F H]. exists (F n j), F. auto.
  - intros [q [n j]] x y [F [H ->]] [F' [H' ->]]. cbn [fst snd] in *. rewrite (isrow_unique q F F' H H'). reflexivity.
  - set (mu := fun q n j => f (q, (n, j))).
    assert (N : forall q, isrow q (mu q)).
    { intros q. destruct (isrow_ex q) as [F H]. replace (mu q) with F; [exact H|]. apply functional_extensionality. intros n. apply functional_extensionality. intros j.
      destruct (Hf (q, (n, j))) as [F' [H' E]]. cbn [fst snd] in *. unfold mu. rewrite E, (isrow_unique q F F' H H'). reflexivity. }
    assert (NN : forall q n j, next (mu q) n j (mu (S q) n j)). { intros q n j. destruct (N (S q)) as (G & A & B). rewrite (isrow_unique q (mu q) G (N q) A). apply B. }
    exists mu. constructor.
    + intros [|q] n j D; [|destruct (NN q n j) as [[E _]|[_ E]]; [contradiction|exact E]]. destruct (N 0%nat n j) as [[E _]|[_ E]]; [subst; contradiction|exact E].
    + intros j. destruct (N 0%nat n0 j) as [[_ E]|[E _]]; [exact E|contradiction].
    + intros n j _ (t & x & X). destruct (N 0%nat n j) as [[E _]|[_ E]]; [subst; contradiction|exact E].
    + intros q n r j D R1 R2. destruct (NN q n j) as [[_ E]|[E _]]; [apply E; assumption|contradiction].
Qed.
Theorem row_unique : forall mu mu', thermal_row m c k n0 mu -> thermal_row m c k n0 mu' -> forall q n j, mu q n j = mu' q n j.
Proof.
  intros mu mu' M M'. assert (G : forall q, mu q = mu' q); [|intros q n j; rewrite G; reflexivity].
  induction q as [|q IH]; apply functional_extensionality; intros n; apply functional_extensionality; intros j; (destruct (classic (full m n)) as [D|D]; [|rewrite (tr_support _ _ _ _ _ M), (tr_support _ _ _ _ _ M') by exact D; reflexivity]).
  - destruct (classic (n = n0)) as [->|E]; [rewrite (tr_start _ _ _ _ _ M), (tr_start _ _ _ _ _ M'); reflexivity|].
    assert (X : exists t x, n t x <> n0 t x). { apply NNPP. intros X. apply E. apply functional_extensionality; intros t; apply functional_extensionality; intros x. apply NNPP. intros Y. apply X. exists t, x. exact Y. }
    rewrite (tr_other _ _ _ _ _ M n j D X), (tr_other _ _ _ _ _ M' n j D X). reflexivity.
  - destruct (near_both n D) as (r & R1 & R2). rewrite (tr_next _ _ _ _ _ M q n r j D R1 R2), (tr_next _ _ _ _ _ M' q n r j D R1 R2), IH. reflexivity.
Qed.
End Defined.

Theorem rows_ex : forall m c k, exists mu, forall n0, full m n0 -> thermal_row m c k n0 (mu n0).
Proof.
  intros m c k. destruct (Exact_proofs.complex_choice (fun (p : placement * (nat * (placement * Z))) z => (full m (fst p) /\ exists mu, thermal_row m c k (fst p) mu /\ z = mu (fst (snd p)) (fst (snd (snd p))) (snd (snd (snd p)))) \/ (~ full m (fst p) /\ z = C0))) as [f Hf].
  - intros [n0 [q [n j]]]. cbn [fst snd]. destruct (classic (full m n0)) as [D|D]; [|exists C0; right; auto]. destruct (row_ex m c k n0 D) as [mu H]. exists (mu q n j). left. split; [exact D|]. exists mu. auto.
  - intros [n0 [q [n j]]] x y [[D (mu & H & ->)]|[D ->]] [[D' (mu' & H' & ->)]|[D' ->]]; cbn [fst snd] in *; try contradiction; [|reflexivity]. apply (row_unique m c k n0 D mu mu' H H').
  - exists (fun n0 q n j => f (n0, (q, (n, j)))). intros n0 D. destruct (row_ex m c k n0 D) as [mu H]. replace (fun q n j => f (n0, (q, (n, j)))) with mu; [exact H|].
    apply functional_extensionality. intros q. apply functional_extensionality. intros n. apply functional_extensionality. intros j.
    destruct (Hf (n0, (q, (n, j)))) as [[_ (mu' & H' & E)]|[E _]]; cbn [fst snd] in *; [|contradiction]. rewrite E. apply (row_unique m c k n0 D mu mu' H H').
Qed.
Theorem thermal_unique : forall m T c k q s s', thermal_moment m T c k q s -> thermal_moment m T c k q s' -> s = s'.
Proof.
  intros m T c k q s s' [r H] [r' H']. destruct (rows_ex m c k) as [mu M]. exact (avg_unique _ _ _ _ _ _ _ (H (Z.max r r') mu ltac:(lia) M) (H' (Z.max r r') mu ltac:(lia) M)).
Qed.
