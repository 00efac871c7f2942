(** Terms and equations on the heap stand for those of Term.v and Equation.v. *)
From Coq Require Import String ZArith List Arith Bool Lia.
From Verif Require Import Base NdArray Config Model Space Render Term Equation System Heap Heap_proofs.
Import ListNotations.
Open Scope list_scope.
Open Scope nat_scope.

(** * A program on the heap and a computation with values *)
Section Sim.
Context {T : Type}.
Implicit Types (h : heap T).

(** Run on [h], [p] ends like [r], leaves the cells below [n] as they are and
    makes no reference from above [b] to below. *)
Definition sim {A B} (n b : nat) (p : prog T A) h (r : result B) (R : heap T -> A -> B -> Prop) : Prop :=
  keeps n h (fst (p h)) /\ good b (fst (p h)) /\
  match snd (p h), r with
  | Ok a, Ok v => R (fst (p h)) a v
  | Err e, Err e' => e = e'
  | _, _ => False
  end.

Lemma sim_bind : forall A A' B B' n b (p : prog T A) (k : A -> prog T A') h (r : result B) (kr : B -> result B') R R',
  sim n b p h r R ->
  (forall h1 a v, keeps n h h1 -> good b h1 -> R h1 a v -> sim n b (k a) h1 (kr v) R') ->
  sim n b (pbind p k) h (bind r kr) R'.
Proof.
  intros A A' B B' n b p k h r kr R R' [K [G M]] H. unfold sim, pbind. destruct (p h) as [h1 [a|e]]; cbn [fst snd] in *.
  - destruct r as [v|]; [|contradiction]. cbn [bind]. destruct (H h1 a v K G M) as [K' [G' M']].
    destruct (k a h1) as [h2 x]; cbn [fst snd] in *. split; [eapply keeps_trans; eassumption|]. auto.
  - destruct r as [v|e']; [contradiction|]. cbn [bind]. auto.
Qed.

Lemma sim_det : forall A A' B n b (p : prog T A) (k : A -> prog T A') h h1 a (r : result B) R,
  p h = (h1, Ok a) -> keeps n h h1 -> sim n b (k a) h1 r R -> sim n b (pbind p k) h r R.
Proof.
  intros A A' B n b p k h h1 a r R E K [K' [G M]]. unfold sim, pbind. rewrite E. split; [eapply keeps_trans; eassumption|]. auto.
Qed.

Lemma sim_load : forall A A' B n b (f : heap T -> loc -> option A) l (k : A -> prog T A') h a (r : result B) R,
  f h l = Some a -> sim n b (k a) h r R -> sim n b (pbind (load f l) k) h r R.
Proof. intros. eapply sim_det; [unfold load; rewrite H; reflexivity|apply keeps_refl|assumption]. Qed.

Lemma sim_alloc : forall A' B n b c (k : loc -> prog T A') h (r : result B) R,
  sim n b (k (List.length h)) (h ++ [c]) r R -> sim n b (pbind (alloc c) k) h r R.
Proof. intros. eapply sim_det; [reflexivity|apply keeps_app|assumption]. Qed.

Lemma sim_store : forall A' B n b l c (k : unit -> prog T A') h (r : result B) R,
  n <= l -> sim n b (k tt) (setn h l c) r R -> sim n b (pbind (store l c) k) h r R.
Proof. intros. eapply sim_det; [reflexivity|apply keeps_set; assumption|assumption]. Qed.

Lemma sim_lift : forall A n b (r : result A) h, good b h -> sim n b (lift r) h r (fun h' a v => h' = h /\ a = v).
Proof. intros A n b r h G. unfold sim, lift. cbn [fst snd]. split; [apply keeps_refl|]. split; [exact G|]. destruct r; auto. Qed.

Lemma sim_pure : forall A A' B' n b (r : result A) (k : A -> prog T A') h (kr : A -> result B') R, good b h ->
  (forall v, r = Ok v -> sim n b (k v) h (kr v) R) -> sim n b (pbind (lift r) k) h (bind r kr) R.
Proof.
  intros A A' B' n b r k h kr R G H. destruct r as [v|e]; cbn [bind].
  - eapply sim_det; [reflexivity|apply keeps_refl|]. auto.
  - unfold sim, pbind, lift. cbn [fst snd]. split; [apply keeps_refl|]. auto.
Qed.

Lemma sim_ret : forall A B n b (a : A) (v : B) h (R : heap T -> A -> B -> Prop), good b h -> R h a v -> sim n b (ret a) h (Ok v) R.
Proof. intros. unfold sim, ret. cbn [fst snd]. split; [apply keeps_refl|]. auto. Qed.

Lemma sim_err : forall A B n b e h (R : heap T -> A -> B -> Prop), good b h -> sim n b (lift (Err e)) h (Err e) R.
Proof. intros. unfold sim, lift. cbn [fst snd]. split; [apply keeps_refl|]. auto. Qed.

Lemma sim_post : forall A B n b (p : prog T A) h (r : result B) (R R' : heap T -> A -> B -> Prop), sim n b p h r R ->
  (forall h1 a v, keeps n h h1 -> good b h1 -> R h1 a v -> R' h1 a v) -> sim n b p h r R'.
Proof.
  intros A B n b p h r R R' [K [G M]] H. split; [exact K|]. split; [exact G|]. destruct (snd (p h)), r; auto.
Qed.

Lemma sim_le : forall A B n n' b (p : prog T A) h (r : result B) R, n' <= n -> sim n b p h r R -> sim n' b p h r R.
Proof. intros A B n n' b p h r R L [K M]. split; [eapply keeps_le; eassumption|exact M]. Qed.

(** The value side ends with [Ok]. *)
Lemma sim_last : forall A B B' n b (p : prog T A) h (r : result B) (f : B -> B') (R : heap T -> A -> B' -> Prop),
  sim n b p h r (fun h1 a v => R h1 a (f v)) -> sim n b p h (bind r (fun v => Ok (f v))) R.
Proof. intros A B B' n b p h r f R [K [G M]]. split; [exact K|]. split; [exact G|]. destruct (snd (p h)), r; auto. Qed.

(** Loops that collect lists. *)
Lemma sim_each : forall X Y A B n b (f : X -> prog T (list A)) (g : Y -> result (list B)) (I : heap T -> list A -> list B -> Prop) h0 xs ys,
  Forall2 (fun x y => forall h us vs, keeps n h0 h -> good b h -> I h us vs -> sim n b (f x) h (g y) (fun h' a v => I h' (us ++ a) (vs ++ v))) xs ys ->
  forall h us vs, keeps n h0 h -> good b h -> I h us vs ->
  sim n b (each f xs) h (mapM g ys) (fun h' a v => I h' (us ++ concat a) (vs ++ concat v)).
Proof.
  intros X Y A B n b f g I h0 xs ys F. induction F as [|x y xs ys H F IH]; intros h us vs K G J; cbn [each mapM].
  - apply sim_ret; [exact G|]. cbn. rewrite !app_nil_r. exact J.
  - eapply sim_bind; [apply H; eassumption|]. intros h1 a v K1 G1 J1. cbn beta.
    apply sim_bind with (R := fun h' a' v' => I h' ((us ++ a) ++ concat a') ((vs ++ v) ++ concat v')).
    + apply IH; auto. eapply keeps_trans; eassumption.
    + intros h2 a' v' K2 G2 J2. apply sim_ret; [exact G2|]. cbn [concat]. rewrite !app_assoc. exact J2.
Qed.
End Sim.

(** * Terms *)
Section Terms.
Context {T : Type}.
Implicit Types (h : heap T).

Lemma no_refs_vec : forall b h (v : vec) y, In y (refs (@CVec T v)) -> b <= y < List.length h.
Proof. intros b h v y []. Qed.
Lemma no_refs_nd : forall b h (a : nd) y, In y (refs (@CNd T a)) -> b <= y < List.length h.
Proof. intros b h a y []. Qed.

Lemma vec_of : forall h l v, cell_at h l = Some (CVec v) -> a_vec h l = Some v.
Proof. intros h l v H. unfold a_vec. rewrite H. reflexivity. Qed.
Lemma nd_of : forall h l a, cell_at h l = Some (CNd a) -> a_nd h l = Some a.
Proof. intros h l a H. unfold a_nd. rewrite H. reflexivity. Qed.
Lemma cfg_of : forall h l la c, cell_at h l = Some (CConfig la (max_mods c) (mods c)) -> cell_at h la = Some (CNd (cfg c)) -> a_cfg h l = Some c.
Proof. intros h l la [a mm m] H K. unfold a_cfg. rewrite H. cbn. rewrite (nd_of _ _ _ K). reflexivity. Qed.

(** An operator of the Hamiltonian, below [n]. *)
Definition low (n : nat) h (hl : loc) (ht : hterm T) : Prop :=
  exists p q, hl < n /\ p < n /\ q < n /\
  cell_at h hl = Some (CHterm (ht_type ht) p q (ht_dag ht) (ht_coupling ht) (ht_index ht) (ht_freq ht)) /\
  cell_at h p = Some (CVec (ht_psi ht)) /\ cell_at h q = Some (CVec (ht_phi ht)).

Lemma low_keeps : forall n h h' hl ht, keeps n h h' -> low n h hl ht -> low n h' hl ht.
Proof.
  intros n h h' hl ht K (p & q & A & B & C & D & E & F). exists p, q. do 3 (split; [assumption|]). split; [|split]; eapply keeps_at; eassumption.
Qed.

Lemma low_le : forall n n' h hl ht, n <= n' -> low n h hl ht -> low n' h hl ht.
Proof. intros n n' h hl ht L (p & q & A & B & C & D). exists p, q. repeat split; try lia; apply D. Qed.

Lemma low_hterm : forall n h hl ht, low n h hl ht -> a_hterm h hl = Some ht.
Proof.
  intros n h hl [ty ps ph d g i f] (p & q & A & B & C & D & E & F). unfold a_hterm. rewrite D. cbn [ht_type ht_dag ht_coupling ht_index ht_freq ht_psi ht_phi] in *.
  rewrite (vec_of _ _ _ E), (vec_of _ _ _ F). reflexivity.
Qed.

(** A term under construction: its arrays are its own, above [n]. *)
Record owned (q n : nat) h (tl : loc) (kd : kind) (c la hl : loc) (cst : option (T * Z)) (el f g : loc) (fs : list (T * Z)) (ml : loc)
    (cf : config) (ht : hterm T) (e fv gv : vec) : Prop := {
  w_t : cell_at h tl = Some (CTerm (mkOterm kd c (Some hl) cst el (Some f) (Some g) fs (Some ml)));
  w_c : cell_at h c = Some (CConfig la (max_mods cf) (mods cf));
  w_a : cell_at h la = Some (CNd (cfg cf));
  w_e : cell_at h el = Some (CVec e);
  w_f : cell_at h f = Some (CVec fv);
  w_g : cell_at h g = Some (CVec gv);
  w_n : n <= tl /\ n <= c /\ n <= la /\ n <= el /\ n <= f /\ n <= g;
  w_d : el <> f /\ el <> g /\ f <> g;
  w_q : q <= n;
  w_h : low q h hl ht }.

Global Arguments w_t {q n h tl kd c la hl cst el f g fs ml cf ht e fv gv} _.
Global Arguments w_c {q n h tl kd c la hl cst el f g fs ml cf ht e fv gv} _.
Global Arguments w_a {q n h tl kd c la hl cst el f g fs ml cf ht e fv gv} _.
Global Arguments w_e {q n h tl kd c la hl cst el f g fs ml cf ht e fv gv} _.
Global Arguments w_f {q n h tl kd c la hl cst el f g fs ml cf ht e fv gv} _.
Global Arguments w_g {q n h tl kd c la hl cst el f g fs ml cf ht e fv gv} _.
Global Arguments w_n {q n h tl kd c la hl cst el f g fs ml cf ht e fv gv} _.
Global Arguments w_d {q n h tl kd c la hl cst el f g fs ml cf ht e fv gv} _.
Global Arguments w_q {q n h tl kd c la hl cst el f g fs ml cf ht e fv gv} _.
Global Arguments w_h {q n h tl kd c la hl cst el f g fs ml cf ht e fv gv} _.

Ltac other := rewrite at_other; [assumption|intros HX; subst; (congruence || tauto)].
Ltac here := apply at_set; eapply at_lt; eassumption.

Section Updates.
Variables (q n : nat) (h : heap T) (tl : loc) (kd : kind) (c la hl : loc) (cst : option (T * Z)) (el f g : loc) (fs : list (T * Z)) (ml : loc)
  (cf : config) (ht : hterm T) (e fv gv : vec).
Hypothesis W : owned q n h tl kd c la hl cst el f g fs ml cf ht e fv gv.

Lemma own_g : forall v, owned q n (setn h g (CVec v)) tl kd c la hl cst el f g fs ml cf ht e fv v.
Proof. intros v. destruct W. constructor; try assumption; try other; try here. eapply low_keeps; [apply keeps_set|eassumption]. lia. Qed.
Lemma own_f : forall v, owned q n (setn h f (CVec v)) tl kd c la hl cst el f g fs ml cf ht e v gv.
Proof. intros v. destruct W. constructor; try assumption; try other; try here. eapply low_keeps; [apply keeps_set|eassumption]. lia. Qed.
Lemma own_e : forall v, owned q n (setn h el (CVec v)) tl kd c la hl cst el f g fs ml cf ht v fv gv.
Proof. intros v. destruct W. constructor; try assumption; try other; try here. eapply low_keeps; [apply keeps_set|eassumption]. lia. Qed.
Lemma own_nd : forall a, owned q n (setn h la (CNd a)) tl kd c la hl cst el f g fs ml (mkConfig a (max_mods cf) (mods cf)) ht e fv gv.
Proof. intros v. destruct W. constructor; cbn [cfg max_mods mods]; try assumption; try other; try here. eapply low_keeps; [apply keeps_set|eassumption]. lia. Qed.
Lemma own_alloc : forall x, owned q n (h ++ [x]) tl kd c la hl cst el f g fs ml cf ht e fv gv.
Proof.
  intros x. destruct W. constructor; try assumption; try (rewrite at_old by (eapply at_lt; eassumption); assumption). eapply low_keeps; [apply keeps_app|eassumption].
Qed.
Lemma own_cfg : forall lb a m, n <= lb -> cell_at h lb = Some (CNd a) ->
  owned q n (setn h c (CConfig lb (max_mods cf) m)) tl kd c lb hl cst el f g fs ml (mkConfig a (max_mods cf) m) ht e fv gv.
Proof. intros lb a m L E. destruct W. constructor; cbn [cfg max_mods mods]; try assumption; try other; try here; try tauto. eapply low_keeps; [apply keeps_set|eassumption]. lia. Qed.
Lemma own_exp : forall el' v, n <= el' -> cell_at h el' = Some (CVec v) -> el' <> f -> el' <> g ->
  owned q n (setn h tl (CTerm (mkOterm kd c (Some hl) cst el' (Some f) (Some g) fs (Some ml)))) tl kd c la hl cst el' f g fs ml cf ht v fv gv.
Proof. intros el' v L E N1 N2. destruct W. constructor; try assumption; try other; try here; try tauto. eapply low_keeps; [apply keeps_set|eassumption]. lia. Qed.
Lemma own_farg : forall f' v, n <= f' -> cell_at h f' = Some (CVec v) -> el <> f' -> f' <> g ->
  owned q n (setn h tl (CTerm (mkOterm kd c (Some hl) cst el (Some f') (Some g) fs (Some ml)))) tl kd c la hl cst el f' g fs ml cf ht e v gv.
Proof. intros f' v L E N1 N2. destruct W. constructor; try assumption; try other; try here; try tauto. eapply low_keeps; [apply keeps_set|eassumption]. lia. Qed.
Lemma own_acfg : a_cfg h c = Some cf.
Proof. destruct W. eapply cfg_of; eassumption. Qed.
Lemma own_value : a_term h tl = Some (mkTerm kd cf (Some ht) cst e (Some fv) (Some gv) fs).
Proof.
  unfold a_term. rewrite (w_t W). cbn [ot_cfg ot_h ot_exp ot_f ot_g ot_kind ot_const ot_fshift maybe].
  rewrite own_acfg. destruct W. rewrite (low_hterm _ _ _ _ w_h0), (vec_of _ _ _ w_e0), (vec_of _ _ _ w_f0), (vec_of _ _ _ w_g0). reflexivity.
Qed.
End Updates.

Global Arguments own_g {q n h tl kd c la hl cst el f g fs ml cf ht e fv gv} W v.
Global Arguments own_f {q n h tl kd c la hl cst el f g fs ml cf ht e fv gv} W v.
Global Arguments own_e {q n h tl kd c la hl cst el f g fs ml cf ht e fv gv} W v.
Global Arguments own_nd {q n h tl kd c la hl cst el f g fs ml cf ht e fv gv} W a.
Global Arguments own_alloc {q n h tl kd c la hl cst el f g fs ml cf ht e fv gv} W x.
Global Arguments own_cfg {q n h tl kd c la hl cst el f g fs ml cf ht e fv gv} W lb a m _ _.
Global Arguments own_exp {q n h tl kd c la hl cst el f g fs ml cf ht e fv gv} W el' v _ _ _ _.
Global Arguments own_farg {q n h tl kd c la hl cst el f g fs ml cf ht e fv gv} W f' v _ _ _ _.
Global Arguments own_acfg {q n h tl kd c la hl cst el f g fs ml cf ht e fv gv} W.
Global Arguments own_value {q n h tl kd c la hl cst el f g fs ml cf ht e fv gv} W.

Definition own (q n : nat) h (tl : loc) (t : term T) : Prop :=
  exists kd c la hl cst el f g fs ml cf ht e fv gv, t = mkTerm kd cf (Some ht) cst e (Some fv) (Some gv) fs /\ owned q n h tl kd c la hl cst el f g fs ml cf ht e fv gv.

(** ** In-place additions *)
Lemma sim_iadd : forall n b h l v u, cell_at h l = Some (CVec v) -> n <= l -> good b h ->
  sim n b (iadd l u) h (vadd_ip v u) (fun h' _ w => h' = setn h l (CVec w)).
Proof.
  intros n b h l v u E L G. unfold iadd. eapply sim_load; [apply vec_of; eassumption|]. destruct (vadd_ip v u) as [w|x].
  - eapply sim_det; [reflexivity|apply keeps_refl|]. unfold sim, store. cbn [fst snd]. split; [apply keeps_set; exact L|]. split; [|reflexivity]. apply good_set; [exact G|apply no_refs_vec].
  - unfold sim, pbind, lift. cbn [fst snd]. split; [apply keeps_refl|]. auto.
Qed.

Lemma sim_iadd_shift : forall n b h l v s, cell_at h l = Some (CVec v) -> n <= l -> good b h ->
  sim n b (iadd_shift l s) h (vadd_shift v s) (fun h' _ w => h' = setn h l (CVec w)).
Proof.
  intros n b h l v s E L G. unfold iadd_shift. eapply sim_load; [apply vec_of; eassumption|]. destruct (vadd_shift v s) as [w|x].
  - eapply sim_det; [reflexivity|apply keeps_refl|]. unfold sim, store. cbn [fst snd]. split; [apply keeps_set; exact L|]. split; [|reflexivity]. apply good_set; [exact G|apply no_refs_vec].
  - unfold sim, pbind, lift. cbn [fst snd]. split; [apply keeps_refl|]. auto.
Qed.

Lemma sim_checked : forall n b h c l cf v, a_cfg h c = Some cf -> cell_at h l = Some (CVec v) -> good b h ->
  sim n b (o_checked c l) h (checked cf v) (fun h' _ w => h' = h /\ w = v).
Proof.
  intros n b h c l cf v E F G. unfold o_checked. eapply sim_load; [exact E|]. eapply sim_load; [apply vec_of; exact F|].
  unfold checked. destruct (guard _ _) as [[]|x]; cbn [bind].
  - eapply sim_det; [reflexivity|apply keeps_refl|]. apply sim_ret; auto.
  - unfold sim, pbind, lift. cbn [fst snd]. split; [apply keeps_refl|]. auto.
Qed.

(** ** Adding and removing a phonon *)
Lemma as_cfg : forall h c la mm m, cell_at h c = Some (CConfig la mm m) -> as_ is_cfg h c = Some (la, mm, m).
Proof. intros h c la mm m E. unfold as_. rewrite E. reflexivity. Qed.

Lemma sim_remove : forall q n b h tl kd c la hl cst el f g fs ml cf ht e fv gv x, b <= n -> good b h ->
  owned q n h tl kd c la hl cst el f g fs ml cf ht e fv gv ->
  sim n b (o_remove_phonon c x) h (remove_phonon cf x)
    (fun h' s cs => s = snd cs /\ exists la', owned q n h' tl kd c la' hl cst el f g fs ml (fst cs) ht e fv gv).
Proof.
  intros q n b h tl kd c la hl cst el f g fs ml cf ht e fv gv x BN G W. unfold o_remove_phonon, remove_phonon.
  destruct (w_n W) as (N1 & N2 & N3 & N4 & N5 & N6).
  eapply sim_load; [apply as_cfg; apply W|]. cbn beta iota. eapply sim_load; [apply nd_of; apply W|].
  apply sim_pure; [exact G|]. intros [] _. apply sim_pure; [exact G|]. intros [] _.
  destruct (norm_indexes (shp (cfg cf)) x) as [i|]; [|unfold sim, pbind, lift; cbn [fst snd]; split; [apply keeps_refl|]; auto].
  eapply sim_det; [reflexivity|apply keeps_refl|]. eapply sim_store; [exact N3|].
  pose proof (own_nd W (upd (cfg cf) i (-1))) as W1.
  assert (G1 : good b (setn h la (CNd (upd (cfg cf) i (-1))))) by (apply good_set; [exact G|apply no_refs_nd]).
  eapply sim_load; [apply nd_of; apply W1|]. cbn [cfg]. apply sim_pure; [exact G1|]. intros [] _. apply sim_pure; [exact G1|]. intros [a s] _. cbn [fst snd].
  eapply sim_alloc. set (h1 := setn h la _) in *.
  assert (G2 : good b (h1 ++ [CNd a])) by (apply good_alloc; [exact G1|apply no_refs_nd]).
  assert (LH : List.length h1 = List.length h) by apply len_set.
  assert (LN : n <= List.length h1) by (pose proof (at_lt _ _ _ (w_t W1)); lia).
  eapply sim_store; [exact N2|].
  pose proof (own_alloc W1 (CNd a)) as W2.
  pose proof (own_cfg W2 (List.length h1) a (mods cf + 1) LN (at_new _ _)) as W3. cbn [max_mods mods] in W3.
  apply sim_ret; [|cbn [snd fst]; split; [reflexivity|]; eexists; exact W3].
  apply good_set; [exact G2|]. intros y [<-|[]]. rewrite app_length. cbn. lia.
Qed.

Lemma sim_add : forall q n b h tl kd c la hl cst el f g fs ml cf ht e fv gv x, b <= n -> good b h ->
  owned q n h tl kd c la hl cst el f g fs ml cf ht e fv gv ->
  sim n b (o_add_phonon c x) h (add_phonon cf x)
    (fun h' s cs => s = snd cs /\ exists la', owned q n h' tl kd c la' hl cst el f g fs ml (fst cs) ht e fv gv).
Proof.
  intros q n b h tl kd c la hl cst el f g fs ml cf ht e fv gv x BN G W. unfold o_add_phonon, add_phonon.
  destruct (w_n W) as (N1 & N2 & N3 & N4 & N5 & N6).
  eapply sim_load; [apply as_cfg; apply W|]. cbn beta iota. eapply sim_load; [apply nd_of; apply W|].
  apply sim_pure; [exact G|]. intros [] _. apply sim_pure; [exact G|]. intros [] _.
  destruct (shp (cfg cf)) as [|d s]; [apply sim_err; exact G|]. destruct x as [|t y]; [apply sim_err; exact G|].
  apply sim_pure; [exact G|]. intros [] _. destruct (inb s y).
  - eapply sim_store; [exact N3|]. eapply sim_store; [exact N2|].
    pose proof (own_nd W (upd (cfg cf) (map Z.to_nat (t :: y)) 1)) as W1.
    set (h1 := setn h la _) in *. pose proof (own_cfg W1 la _ (mods cf + 1) N3 (w_a W1)) as W2.
    cbn [max_mods mods cfg] in W2. apply sim_ret; [|cbn [snd fst]; split; [reflexivity|]; eexists; exact W2].
    apply good_set; [apply good_set; [exact G|apply no_refs_nd]|]. intros z [<-|[]]. split; [lia|]. eapply at_lt, W1.
  - eapply sim_alloc. set (a' := pad _ _). eapply sim_load; [apply nd_of, at_new|].
    assert (LN : n <= List.length h) by (pose proof (at_lt _ _ _ (w_t W)); lia).
    eapply sim_store; [exact LN|]. eapply sim_store; [exact N2|].
    pose proof (own_alloc W (CNd a')) as W1. set (h1 := h ++ _) in *. set (i := map (fun z : Z => Z.to_nat (Z.max z 0)) (t :: y)).
    assert (L1 : List.length h < List.length h1) by (unfold h1; rewrite app_length; cbn; lia).
    assert (W2 : owned q n (setn h1 (List.length h) (CNd (upd a' i 1))) tl kd c la hl cst el f g fs ml cf ht e fv gv).
    { clear - W1 W LN. assert (X : forall k ck, cell_at h k = Some ck -> cell_at (setn h1 (List.length h) (CNd (upd a' i 1))) k = Some ck).
      { intros k ck E. pose proof (at_lt _ _ _ E). rewrite at_other by lia. unfold h1. rewrite at_old by lia. exact E. }
      destruct W. constructor; auto. eapply low_keeps; [apply keeps_set; lia|apply W1]. }
    set (h2 := setn h1 _ _) in *.
    pose proof (own_cfg W2 (List.length h) _ (mods cf + 1) LN (at_set _ _ _ L1)) as W3.
    cbn [max_mods mods cfg] in W3. apply sim_ret; [|cbn [snd fst]; split; [reflexivity|]; eexists; exact W3].
    apply good_set; [apply good_set; [apply good_alloc; [exact G|apply no_refs_nd]|apply no_refs_nd]|]. intros z [<-|[]]. unfold h2. rewrite len_set. lia.
Qed.

Lemma as_term : forall h l o, cell_at h l = Some (CTerm o) -> as_ is_term h l = Some o.
Proof. intros h l o E. unfold as_. rewrite E. reflexivity. Qed.

(** ** [_modify_n_phonons_], [step_] and [check_if_green_and_simplify_] *)
Lemma sim_modify : forall q n b h tl kd c la hl cst el f g fs ml cf ht e fv gv x, b <= n -> good b h ->
  owned q n h tl kd c la hl cst el f g fs ml cf ht e fv gv ->
  sim n b (o_modify tl f x) h (modify (mkTerm kd cf (Some ht) cst e (Some fv) (Some gv) fs) fv gv x) (fun h' _ t' => own q n h' tl t').
Proof.
  intros q n b h tl kd c la hl cst el f g fs ml cf ht e fv gv x BN G W. unfold o_modify, modify.
  eapply sim_load; [apply as_term; apply W|]. cbn [ot_kind t_kind t_cfg t_exp t_h t_const t_fshift ot_cfg ot_exp].
  destruct kd.
  - apply sim_ret; [exact G|]. unfold own. eauto 20.
  - apply sim_ret; [exact G|]. unfold own. eauto 20.
  - eapply sim_bind; [eapply sim_remove; eassumption|]. intros h1 s [cf' s'] K1 G1 [Es [la' W1]]. cbn [fst snd] in *. subst s.
    destruct (w_n W1) as (N1 & N2 & N3 & N4 & N5 & N6).
    eapply sim_bind; [apply sim_iadd_shift; [apply W1|assumption|assumption]|]. intros h2 [] e' K2 G2 ->.
    pose proof (own_e W1 e') as W2.
    eapply sim_bind; [eapply sim_checked; [eapply own_acfg; exact W2|apply W2|exact G2]|]. intros h3 [] v K3 G3 [-> ->].
    eapply sim_bind; [apply sim_iadd_shift; [apply W2|assumption|assumption]|]. intros h3 [] f' K3' G3' ->.
    pose proof (own_f W2 f') as W3.
    apply sim_last. eapply sim_post; [eapply sim_checked; [eapply own_acfg; exact W3|apply W3|exact G3']|].
    intros h4 [] v K4 G4 [-> ->]. unfold own. eauto 20.
  - eapply sim_bind; [eapply sim_add; eassumption|]. intros h1 s [cf' s'] K1 G1 [Es [la' W1]]. cbn [fst snd] in *. subst s.
    destruct (w_n W1) as (N1 & N2 & N3 & N4 & N5 & N6).
    destruct s' as [z|v]; [apply sim_err; exact G1|].
    eapply sim_alloc. pose proof (own_alloc W1 (CVec (ivec v))) as W2.
    assert (G2 : good b (h1 ++ [CVec (ivec v)])) by (apply good_alloc; [exact G1|apply no_refs_vec]).
    eapply sim_bind; [eapply sim_checked; [eapply own_acfg; exact W2|apply at_new|exact G2]|]. intros h2 [] v' K2 _ [-> ->].
    eapply sim_store; [exact N1|]. unfold with_exp. cbn [ot_kind ot_cfg ot_h ot_const ot_exp ot_f ot_g ot_fshift ot_model].
    assert (LN : n <= List.length h1) by (pose proof (at_lt _ _ _ (w_t W1)); lia).
    assert (LF : f < List.length h1) by (eapply at_lt, W1). assert (LG : g < List.length h1) by (eapply at_lt, W1).
    pose proof (own_exp W2 (List.length h1) (ivec v) LN (at_new _ _) ltac:(lia) ltac:(lia)) as W3.
    match goal with |- sim _ _ _ ?X _ _ => set (h2 := X) in * end.
    assert (G3 : good b h2).
    { apply good_set; [exact G2|]. pose proof (proj2 G1 tl _ ltac:(lia) (w_t W1)) as RR. rewrite app_length. cbn [List.length]. cbn [refs ot_cfg ot_exp ot_h ot_f ot_g ot_model olist app] in RR |- *.
      intros y [<-|[<-|Y]].
      - specialize (RR c (or_introl eq_refl)). lia.
      - lia.
      - specialize (RR y (or_intror (or_intror Y))). lia. }
    eapply sim_bind; [apply sim_iadd_shift; [apply W3|assumption|assumption]|]. intros h3 [] f' K3' G3' ->.
    pose proof (own_f W3 f') as W4.
    apply sim_last. eapply sim_post; [eapply sim_checked; [eapply own_acfg; exact W4|apply W4|exact G3']|].
    intros h4 [] w K4 G4 [-> ->]. unfold own. eauto 20.
Qed.

Lemma sim_step : forall q n b h tl t x, b <= n -> good b h -> own q n h tl t -> t_kind t = KAnnih \/ t_kind t = KCreat ->
  sim n b (o_step tl x) h (step t x) (fun h' _ t' => own q n h' tl t').
Proof.
  intros q n b h tl t x BN G (kd & c & la & hl & cst & el & f & g & fs & ml & cf & ht & e & fv & gv & -> & W) KD.
  unfold o_step, step. eapply sim_load; [apply as_term; apply W|]. cbn [ot_kind t_kind t_cfg t_exp t_h t_f t_g t_const t_fshift ot_cfg ot_exp ot_h ot_f ot_g].
  destruct (w_n W) as (N1 & N2 & N3 & N4 & N5 & N6).
  eapply sim_bind; [apply sim_iadd; [apply W|assumption|assumption]|]. intros h1 [] g' K1 G1 ->.
  pose proof (own_g W g') as W1.
  eapply sim_bind; [eapply sim_checked; [eapply own_acfg; exact W1|apply W1|exact G1]|]. intros h2 [] v K2 _ [-> ->].
  eapply sim_bind; [apply sim_iadd; [apply W1|assumption|assumption]|]. intros h2 [] f' K2' G2 ->.
  pose proof (own_f W1 f') as W2.
  eapply sim_bind; [eapply sim_checked; [eapply own_acfg; exact W2|apply W2|exact G2]|]. intros h3 [] v K3 _ [-> ->].
  eapply sim_load; [eapply low_hterm, W2|].
  pose proof (sim_modify _ _ b _ _ _ _ _ _ _ _ _ _ _ _ _ _ _ _ _ (Z.of_nat (ht_index ht) :: x) BN G2 W2) as M.
  cbn [t_kind] in KD. destruct KD as [-> | ->]; exact M.
Qed.

Lemma sim_simplify : forall q n b h tl t, b <= n -> good b h -> own q n h tl t ->
  sim n b (o_simplify tl) h (simplify_green t) (fun h' _ t' => own q n h' tl t').
Proof.
  intros q n b h tl t BN G (kd & c & la & hl & cst & el & f & g & fs & ml & cf & ht & e & fv & gv & -> & W).
  unfold o_simplify, simplify_green. eapply sim_load; [apply as_term; apply W|]. cbn [ot_kind t_kind t_cfg t_exp t_h t_f t_g t_const t_fshift ot_cfg ot_exp ot_h ot_f ot_g].
  destruct (w_n W) as (N1 & N2 & N3 & N4 & N5 & N6). eapply sim_load; [eapply own_acfg; exact W|].
  destruct (String.eqb _ _); [|apply sim_ret; [exact G|]; unfold own; eauto 20].
  eapply sim_load; [apply vec_of; apply W|]. destruct (existsb _ _); [|apply sim_ret; [exact G|]; unfold own; eauto 20].
  eapply sim_bind; [apply sim_iadd; [apply W|assumption|assumption]|]. intros h1 [] e' K1 G1 ->. pose proof (own_e W e') as W1. set (h1 := setn h el _) in *.
  eapply sim_alloc. set (z := mkVec _ _). pose proof (own_alloc W1 (CVec z)) as W2.
  assert (G2 : good b (h1 ++ [CVec z])) by (apply good_alloc; [exact G1|apply no_refs_vec]).
  assert (LN : n <= List.length h1) by (pose proof (at_lt _ _ _ (w_t W1)); lia).
  assert (LE : el < List.length h1) by (eapply at_lt, W1). assert (LG : g < List.length h1) by (eapply at_lt, W1).
  pose proof (own_farg W2 (List.length h1) z LN (at_new _ _) ltac:(lia) ltac:(lia)) as W3.
  unfold sim, store, with_f. cbn [fst snd ot_kind ot_cfg ot_h ot_const ot_exp ot_f ot_g ot_fshift ot_model].
  split; [apply keeps_set; exact N1|]. split; [|unfold own; eauto 20].
  apply good_set; [exact G2|]. pose proof (proj2 G1 tl _ ltac:(lia) (w_t W1)) as RR. rewrite app_length. cbn [List.length]. cbn [refs ot_cfg ot_exp ot_h ot_f ot_g ot_model olist app] in RR |- *.
  assert (forall y, In y [c; el; hl; f; g; ml] -> b <= y < List.length h1) as R2 by exact RR.
  intros y Y. assert (Y' : y = List.length h1 \/ In y [c; el; hl; f; g; ml]) by (cbn in *; intuition).
  destruct Y' as [-> | Y']; [lia|]. specialize (R2 y Y'). lia.
Qed.

(** ** Constructors: new cells only *)
Lemma at_plus : forall h xs i, cell_at (h ++ xs) (List.length h + i) = nth_error xs i.
Proof. intros. unfold cell_at. rewrite nth_error_app2 by lia. f_equal. lia. Qed.

Lemma at_first : forall h x xs, cell_at (h ++ x :: xs) (List.length h) = Some x.
Proof. intros. unfold cell_at. rewrite nth_error_app2, Nat.sub_diag by lia. reflexivity. Qed.

Lemma sim_new : forall A' B n b p c (k : loc -> prog T A') h xs (r : result B) R,
  p (h ++ xs) = ((h ++ xs) ++ [c], Ok (List.length (h ++ xs))) ->
  sim n b (k (List.length h + List.length xs)) (h ++ (xs ++ [c])) r R -> sim n b (pbind p k) (h ++ xs) r R.
Proof.
  intros A' B n b p c k h xs r R E H. eapply sim_det; [exact E|apply keeps_app|]. rewrite app_length, <- app_assoc. exact H.
Qed.

Lemma good_app : forall b h xs, good b h -> b <= List.length h -> (forall c, In c xs -> forall y, In y (refs c) -> b <= y < List.length h + List.length xs) -> good b (h ++ xs).
Proof.
  intros b h xs [A B] L H. assert (X : forall b', b' <= b -> sealed b' h -> sealed b' (h ++ xs)).
  { intros b' L' S l c E F y Y. rewrite app_length. destruct (le_lt_dec (List.length h) l) as [M|M].
    - unfold cell_at in F. rewrite nth_error_app2 in F by exact M. apply nth_error_In in F. specialize (H c F y Y). lia.
    - rewrite at_old in F by exact M. specialize (S l c E F y Y). lia. }
  split; apply X; auto; lia.
Qed.

Lemma copy_vec_run : forall h l v, a_vec h l = Some v -> copy_vec l h = (h ++ [CVec v], Ok (List.length h)).
Proof. intros h l v E. unfold copy_vec, pbind, load. rewrite E. reflexivity. Qed.
Lemma copy_nd_run : forall h l a, a_nd h l = Some a -> copy_nd l h = (h ++ [CNd a], Ok (List.length h)).
Proof. intros h l v E. unfold copy_nd, pbind, load. rewrite E. reflexivity. Qed.
Lemma zero_shift_run : forall h c cf, a_cfg h c = Some cf -> o_zero_shift c h = (h ++ [CVec (zero_shift cf)], Ok (List.length h)).
Proof. intros h l v E. unfold o_zero_shift, pbind, load. rewrite E. reflexivity. Qed.
Lemma get_phi_run : forall n h hl ht, low n h hl ht -> get_phi hl h = (h ++ [CVec (ht_phi ht)], Ok (List.length h)).
Proof.
  intros n h hl ht (p & q & _ & _ & _ & D & _ & F). unfold get_phi, pbind, load, as_. rewrite D. cbn [opt_bind is_hterm snd].
  apply copy_vec_run, vec_of, F.
Qed.
Lemma get_psi_run : forall n h hl ht, low n h hl ht -> get_psi hl h = (h ++ [CVec (ht_psi ht)], Ok (List.length h)).
Proof.
  intros n h hl ht (p & q & _ & _ & _ & D & F & _). unfold get_psi, pbind, load, as_. rewrite D. cbn [opt_bind is_hterm fst].
  apply copy_vec_run, vec_of, F.
Qed.

Lemma low_app : forall n h hl ht xs, low n h hl ht -> low n (h ++ xs) hl ht.
Proof. intros. eapply low_keeps; [apply keeps_app|eassumption]. Qed.

Lemma sim_config : forall n b h l a, b <= List.length h -> good b h -> a_nd h l = Some a ->
  sim n b (o_config l) h (config_init a 1 0) (fun h' c cf => h' = h ++ [CNd a; CConfig (List.length h) 1 0] /\ c = List.length h + 1 /\ cf = mkConfig a 1 0).
Proof.
  intros n b h l a BL G E. unfold o_config, config_init. eapply sim_load; [exact E|]. apply sim_pure; [exact G|]. intros [] _.
  eapply sim_alloc. unfold sim, alloc. cbn [fst snd].
  split; [apply keeps_app|]. rewrite <- app_assoc. cbn [app]. split; [|rewrite app_length; cbn; auto].
  apply good_app; auto. cbn. intros c [<-|[<-|[]]]; cbn; [tauto|]. intros y [<-|[]]. lia.
Qed.

Ltac growth := apply good_app; [assumption|lia|]; cbn; intros ?c ?C; repeat (destruct C as [<-|C]); try (destruct C); cbn; intros ?y ?Y; repeat (destruct Y as [<-|Y]); try (destruct Y); lia.

Lemma sim_diff : forall n b h x y u v A' B' (k : loc -> prog T A') (kr : vec -> result B') xs R, good b (h ++ xs) -> a_vec (h ++ xs) x = Some u -> a_vec (h ++ xs) y = Some v ->
  (forall d, vsub u v = Ok d -> sim n b (k (List.length h + List.length xs)) (h ++ (xs ++ [CVec d])) (kr d) R) ->
  sim n b (pbind (diff x y) k) (h ++ xs) (bind (vsub u v) kr) R.
Proof.
  intros n b h x y u v A' B' k kr xs R G X Y H. unfold sim, diff, pbind, load, lift, alloc. rewrite X. cbn beta iota. rewrite Y. cbn beta iota.
  destruct (vsub u v) as [d|e]; cbn [bind]; [|cbn [fst snd]; split; [apply keeps_refl|auto]].
  destruct (H d eq_refl) as [K [G' M]]. rewrite app_length, <- app_assoc. split; [|split; [exact G'|exact M]].
  eapply keeps_trans; [|exact K]. split; [rewrite !app_length; lia|]. intros l _ L. rewrite !app_assoc, at_old by exact L. reflexivity.
Qed.

Lemma vec_plus : forall h xs i v, nth_error xs i = Some (CVec v) -> a_vec (h ++ xs) (List.length h + i) = Some v.
Proof. intros h xs i v E. unfold a_vec. rewrite at_plus, E. reflexivity. Qed.

Lemma cfg_plus : forall h xs a, a_cfg (h ++ CNd a :: CConfig (List.length h) 1 0 :: xs) (List.length h + 1) = Some (mkConfig a 1 0).
Proof.
  intros h xs a. apply (cfg_of _ _ (List.length h)); [exact (at_plus h (CNd a :: CConfig (List.length h) 1 0 :: xs) 1)|].
  pose proof (at_plus h (CNd a :: CConfig (List.length h) 1 0 :: xs) 0) as E. rewrite Nat.add_0_r in E. exact E.
Qed.

Lemma sim_nonindex : forall q b h kd l hl ml mult a ht m, b <= List.length h -> good b h -> cell_at h l = Some (CNd a) ->
  low q h hl ht -> q <= List.length h -> a_model h ml = Some m -> sealed 0 h -> ml < List.length h -> b <= hl -> b <= ml ->
  sim (List.length h) b (o_nonindex_term kd l hl ml mult) h (nonindex_term kd a ht (h_freqs (m_ham m)) mult)
    (fun h' tl t => own q (List.length h) h' tl t /\ t_kind t = kd /\ t_h t = Some ht).
Proof.
  intros q b h kd l hl ml mult a ht m BL G El Lw LQ Em S0 Lm Bh Bm. unfold o_nonindex_term, nonindex_term.
  assert (HL : hl < List.length h) by (destruct Lw as (p & p' & X & _); lia).
  eapply sim_bind; [apply sim_config; [exact BL|exact G|apply nd_of; exact El]|]. intros h1 c cf K1 G1 (-> & -> & ->). clear K1 G1.
  eapply sim_new; [apply zero_shift_run; apply cfg_plus|]; cbn [app List.length].
  eapply sim_new; [eapply get_phi_run, low_app, Lw|]; cbn [app List.length].
  eapply sim_new; [apply copy_vec_run; apply vec_plus with (i := 3); reflexivity|]; cbn [app List.length].
  eapply sim_bind; [eapply sim_checked; [apply cfg_plus|apply at_plus with (i := 4)|]|]; [growth|]. cbn beta. intros h2 [] v _ G2 [-> ->]. clear G2.
  eapply sim_new; [eapply get_psi_run, low_app, Lw|]; cbn [app List.length].
  eapply sim_new; [eapply get_phi_run, low_app, Lw|]; cbn [app List.length].
  eapply sim_diff; [growth|apply vec_plus with (i := 5); reflexivity|apply vec_plus with (i := 6); reflexivity|]. intros d _. cbn [app List.length].
  eapply sim_new; [apply copy_vec_run; apply vec_plus with (i := 7); reflexivity|]; cbn [app List.length].
  eapply sim_bind; [eapply sim_checked; [apply cfg_plus|apply at_plus with (i := 8)|]|]; [growth|]. cbn beta. intros h2 [] v _ G2 [-> ->]. clear G2.
  eapply sim_load; [eapply low_hterm, low_app, Lw|].
  eapply sim_load; [rewrite (iso_model _ _ _ _ (iso_keeps h _ S0 (keeps_app _ _ _)) ml Lm); exact Em|].
  eapply sim_load; [apply cfg_plus|]. cbn [cfg]. apply sim_pure; [growth|]. intros fs _.
  unfold sim, alloc. cbn [fst snd]. split; [apply keeps_app|]. rewrite <- app_assoc. cbn [app]. split.
  - growth.
  - split; [|auto]. unfold own. do 15 eexists. split; [reflexivity|]. rewrite app_length. cbn [List.length].
    constructor; cbn [max_mods mods cfg].
    + rewrite at_plus; reflexivity.
    + rewrite at_plus; reflexivity.
    + apply at_first.
    + rewrite at_plus; reflexivity.
    + rewrite at_plus; reflexivity.
    + rewrite at_plus; reflexivity.
    + lia.
    + lia.
    + exact LQ.
    + apply low_app, Lw.
Qed.
End Terms.
