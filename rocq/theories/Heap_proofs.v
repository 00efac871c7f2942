(** Heaps, frames and copies (lemmas on Heap.v). *)
From Coq Require Import String ZArith List Arith Bool Lia.
From Verif Require Import Base NdArray Config Model Space Render Term Equation System Heap.
Import ListNotations.
Open Scope list_scope.
Open Scope nat_scope.

Section Basics.
Context {T : Type}.
Implicit Types (h : heap T) (c : cell T).

Lemma at_lt : forall h l c, cell_at h l = Some c -> l < List.length h.
Proof. intros h l c H. apply nth_error_Some. unfold cell_at in H. congruence. Qed.

Lemma at_ex : forall h l, l < List.length h -> exists c, cell_at h l = Some c.
Proof. intros h l H. unfold cell_at. destruct (nth_error h l) eqn:E; [eauto|]. apply nth_error_None in E. lia. Qed.

Lemma at_old : forall h x l, l < List.length h -> cell_at (h ++ x) l = cell_at h l.
Proof. intros. apply nth_error_app1. assumption. Qed.

Lemma at_new : forall h c, cell_at (h ++ [c]) (List.length h) = Some c.
Proof. intros. unfold cell_at. rewrite nth_error_app2, Nat.sub_diag by lia. reflexivity. Qed.

Lemma len_set : forall h l c, List.length (setn h l c) = List.length h.
Proof. induction h as [|x h IH]; intros [|l] c; cbn; auto. Qed.

Lemma at_set : forall h l c, l < List.length h -> cell_at (setn h l c) l = Some c.
Proof. unfold cell_at. induction h as [|x h IH]; intros [|l] c H; cbn in *; try lia; auto. apply IH. lia. Qed.

Lemma at_other : forall h l c k, k <> l -> cell_at (setn h l c) k = cell_at h k.
Proof. unfold cell_at. induction h as [|x h IH]; intros [|l] c [|k] H; cbn; auto; congruence. Qed.

(** The cells below [n] are as before, and none is lost. *)
Definition keeps (n : nat) h h' : Prop := List.length h <= List.length h' /\ forall l, l < n -> l < List.length h -> cell_at h' l = cell_at h l.

Lemma keeps_refl : forall n h, keeps n h h.
Proof. split; auto. Qed.

Lemma keeps_trans : forall n h h1 h2, keeps n h h1 -> keeps n h1 h2 -> keeps n h h2.
Proof. intros n h h1 h2 [A B] [C D]. split; [lia|]. intros l L M. rewrite D by lia. auto. Qed.

Lemma keeps_le : forall n n' h h', n' <= n -> keeps n h h' -> keeps n' h h'.
Proof. intros n n' h h' L [A B]. split; [exact A|]. intros. apply B; lia. Qed.

Lemma keeps_app : forall n h x, keeps n h (h ++ x).
Proof. intros. split; [rewrite app_length; lia|]. intros. apply at_old. assumption. Qed.

Lemma keeps_set : forall n h l c, n <= l -> keeps n h (setn h l c).
Proof. intros. split; [rewrite len_set; lia|]. intros. apply at_other. lia. Qed.

Lemma keeps_at : forall n h h' l c, keeps n h h' -> l < n -> cell_at h l = Some c -> cell_at h' l = Some c.
Proof. intros n h h' l c [A B] L E. rewrite B; auto. eapply at_lt. eassumption. Qed.

(** No reference leads from the cells above [b] to a cell below, and none
    leads outside the heap. *)
Definition sealed (b : nat) h : Prop := forall l c, b <= l -> cell_at h l = Some c -> forall y, In y (refs c) -> b <= y < List.length h.
Definition good (b : nat) h : Prop := sealed 0 h /\ sealed b h.

Lemma sealed_alloc : forall b h c, sealed b h -> (b <= List.length h -> forall y, In y (refs c) -> b <= y < List.length h) -> sealed b (h ++ [c]).
Proof.
  intros b h c S H l c' L E y Y. rewrite app_length. cbn. pose proof (at_lt _ _ _ E) as M. rewrite app_length in M. cbn in M.
  destruct (Nat.eq_dec l (List.length h)) as [-> | N].
  - rewrite at_new in E. injection E as <-. specialize (H L y Y). lia.
  - rewrite at_old in E by lia. specialize (S l c' L E y Y). lia.
Qed.

Lemma sealed_set : forall b h k c, sealed b h -> (b <= k -> forall y, In y (refs c) -> b <= y < List.length h) -> sealed b (setn h k c).
Proof.
  intros b h k c S H l c' L E y Y. rewrite len_set. destruct (Nat.eq_dec l k) as [-> | N].
  - pose proof (at_lt _ _ _ E) as M. rewrite len_set in M. rewrite at_set in E by assumption. injection E as <-. auto.
  - rewrite at_other in E by assumption. eauto.
Qed.

Lemma good_alloc : forall b h c, good b h -> (forall y, In y (refs c) -> b <= y < List.length h) -> good b (h ++ [c]).
Proof. intros b h c [A B] H. split; apply sealed_alloc; auto. intros _ y Y. specialize (H y Y). lia. Qed.

Lemma good_set : forall b h l c, good b h -> (forall y, In y (refs c) -> b <= y < List.length h) -> good b (setn h l c).
Proof. intros b h l c [A B] H. split; apply sealed_set; auto. intros _ y Y. specialize (H y Y). lia. Qed.

(** * Heaps that look the same from some objects *)

Definition iso (P : loc -> Prop) (p : loc -> loc) h h' : Prop :=
  forall x, P x -> exists c, cell_at h x = Some c /\ cell_at h' (p x) = Some (relink p c) /\ forall y, In y (refs c) -> P y.

Lemma opt_map_ext : forall A B (f g : A -> option B) l, (forall x, In x l -> f x = g x) -> opt_map f l = opt_map g l.
Proof.
  induction l as [|x l IH]; intros H; [reflexivity|]. cbn. rewrite (H x (or_introl eq_refl)), IH by (intros; apply H; right; assumption). reflexivity.
Qed.

Lemma opt_map_map : forall A B C (f : B -> option C) (g : A -> B) l, opt_map f (map g l) = opt_map (fun x => f (g x)) l.
Proof. induction l as [|x l IH]; [reflexivity|]. cbn. rewrite IH. reflexivity. Qed.

Lemma opt_map_some : forall A B (f : A -> option B) l ys, opt_map f l = Some ys <-> Forall2 (fun x y => f x = Some y) l ys.
Proof.
  induction l as [|x l IH]; intros ys; cbn.
  - split; [intros [= <-]; constructor|intros H; inversion H; reflexivity].
  - destruct (f x) as [y|] eqn:E; cbn; [|split; [discriminate|intros H; inversion H; congruence]].
    destruct (opt_map f l) as [zs|]; cbn.
    + split; [intros [= <-]; constructor; [exact E|apply IH; reflexivity]|].
      intros H. inversion H as [|? z ? zq F1 F2]; subst. apply IH in F2. congruence.
    + split; [discriminate|]. intros H. inversion H as [|? z ? zq F1 F2]; subst. apply IH in F2. discriminate F2.
Qed.

Section Iso.
Variables (P : loc -> Prop) (p : loc -> loc) (h h' : heap T).
Hypothesis I : iso P p h h'.

Lemma iso_cell : forall l, P l -> cell_at h' (p l) = option_map (relink p) (cell_at h l).
Proof. intros l H. destruct (I l H) as [c [A [B _]]]. rewrite A, B. reflexivity. Qed.

Lemma iso_refs : forall l c y, P l -> cell_at h l = Some c -> In y (refs c) -> P y.
Proof. intros l c y H E Y. destruct (I l H) as [c' [A [_ B]]]. apply B. congruence. Qed.

Ltac look l H := rewrite (iso_cell l H); let E := fresh "E" in destruct (cell_at h l) as [[]|] eqn:E; cbn [option_map relink]; try reflexivity.

Lemma iso_vec : forall l, P l -> a_vec h' (p l) = a_vec h l.
Proof. intros l H. unfold a_vec. look l H. Qed.

Lemma iso_nd : forall l, P l -> a_nd h' (p l) = a_nd h l.
Proof. intros l H. unfold a_nd. look l H. Qed.

Lemma iso_cfg : forall l, P l -> a_cfg h' (p l) = a_cfg h l.
Proof.
  intros l H. unfold a_cfg. look l H. rewrite iso_nd; [reflexivity|]. apply (iso_refs _ _ _ H E). left. reflexivity.
Qed.

Lemma iso_hterm : forall l, P l -> a_hterm h' (p l) = a_hterm h l.
Proof.
  intros l H. unfold a_hterm. look l H. rewrite !iso_vec; [reflexivity| |]; apply (iso_refs _ _ _ H E); cbn; auto.
Qed.

Lemma iso_model : forall l, P l -> a_model h' (p l) = a_model h l.
Proof.
  intros l H. unfold a_model. look l H. rewrite opt_map_map. erewrite (opt_map_ext _ _ _ (a_hterm h)); [reflexivity|].
  intros x X. apply iso_hterm. apply (iso_refs _ _ _ H E). exact X.
Qed.

Lemma iso_maybe : forall A (f f' : loc -> option A) x, (forall l, In l (olist x) -> f' (p l) = f l) -> maybe f' (option_map p x) = maybe f x.
Proof. intros A f f' [l|] H; cbn; [|reflexivity]. rewrite H; [reflexivity|left; reflexivity]. Qed.

Lemma iso_term : forall l, P l -> a_term h' (p l) = a_term h l.
Proof.
  intros l H. unfold a_term. look l H. cbn [ot_kind ot_cfg ot_h ot_const ot_exp ot_f ot_g ot_fshift].
  assert (R : forall y, In y (refs (CTerm o)) -> P y) by (intros y Y; apply (iso_refs _ _ _ H E Y)). cbn [refs] in R.
  rewrite iso_cfg by (apply R; left; reflexivity). rewrite iso_vec by (apply R; right; left; reflexivity).
  rewrite (iso_maybe _ (a_hterm h)) by (intros x X; apply iso_hterm, R; do 2 right; apply in_or_app; auto).
  rewrite (iso_maybe _ (a_vec h) _ (ot_f o)) by (intros x X; apply iso_vec, R; do 2 right; apply in_or_app; right; apply in_or_app; auto).
  rewrite (iso_maybe _ (a_vec h) _ (ot_g o)) by (intros x X; apply iso_vec, R; do 2 right; apply in_or_app; right; apply in_or_app; right; apply in_or_app; auto).
  reflexivity.
Qed.

Lemma iso_list : forall A (f f' : loc -> option A) l, P l -> (forall x, P x -> f' (p x) = f x) -> a_list f' h' (p l) = a_list f h l.
Proof.
  intros A f f' l H F. unfold a_list. look l H. rewrite opt_map_map. apply opt_map_ext. intros x X. apply F, (iso_refs _ _ _ H E X).
Qed.

Lemma iso_dict : forall l, P l -> a_dict h' (p l) = a_dict h l.
Proof.
  intros l H. unfold a_dict. look l H. rewrite opt_map_map. apply opt_map_ext. intros x X. cbn [fst snd].
  rewrite (iso_list _ (a_vec h)); [reflexivity| |exact iso_vec]. apply (iso_refs _ _ _ H E). apply in_map, X.
Qed.

Lemma iso_eq : forall l, P l -> a_eq h' (p l) = a_eq h l.
Proof.
  intros l H. unfold a_eq. look l H. assert (R : forall y, In y [index; model; terms; fargs] -> P y) by (intros y Y; apply (iso_refs _ _ _ H E Y)).
  rewrite iso_term by (apply R; cbn; auto). rewrite (iso_list _ (a_term h)); [|apply R; cbn; auto|exact iso_term].
  rewrite iso_dict by (apply R; cbn; auto). reflexivity.
Qed.
End Iso.

Lemma relink_id : forall c, relink (fun x => x) c = c.
Proof.
  assert (O : forall A (x : option A), option_map (fun y => y) x = x) by (intros A [a|]; reflexivity).
  destruct c; cbn; rewrite ?map_id; auto.
  - rewrite !O. destruct o; reflexivity.
  - f_equal. rewrite <- (map_id d) at 2. apply map_ext. intros [k x]. reflexivity.
Qed.

(** A block of cells that refer to each other only. *)
Definition block (lo hi : nat) h : Prop := forall x, lo <= x < hi -> exists c, cell_at h x = Some c /\ forall y, In y (refs c) -> lo <= y < hi.
Definition agree (lo hi : nat) h h' : Prop := forall x, lo <= x < hi -> cell_at h' x = cell_at h x.

Lemma iso_block : forall lo hi h h', block lo hi h -> agree lo hi h h' -> iso (fun x => lo <= x < hi) (fun x => x) h h'.
Proof. intros lo hi h h' B A x X. destruct (B x X) as [c [E R]]. exists c. rewrite relink_id, A by exact X. auto. Qed.

Lemma block_agree : forall lo hi h h', block lo hi h -> agree lo hi h h' -> block lo hi h'.
Proof. intros lo hi h h' B A x X. destruct (B x X) as [c [E R]]. exists c. rewrite A by exact X. auto. Qed.

Lemma sealed_block : forall b h, sealed b h -> block b (List.length h) h.
Proof. intros b h S x X. destruct (at_ex h x) as [c E]; [lia|]. exists c. split; [exact E|]. intros y Y. apply (S x c); auto. lia. Qed.

Lemma keeps_agree : forall n h h' lo hi, keeps n h h' -> hi <= n -> hi <= List.length h -> agree lo hi h h'.
Proof. intros n h h' lo hi [_ K] L M x X. apply K; lia. Qed.

(** Everything in the heap is as before when the cells that were there are. *)
Lemma iso_keeps : forall h h', sealed 0 h -> keeps (List.length h) h h' -> iso (fun x => x < List.length h) (fun x => x) h h'.
Proof.
  intros h h' S K x X. destruct (at_ex h x X) as [c E]. exists c. rewrite relink_id. split; [exact E|]. split; [eapply keeps_at; eassumption|].
  intros y Y. apply (S x c); auto. lia.
Qed.

(** * Copying *)

Lemma seen_spec : forall l s, seen_in l s = true <-> In l s.
Proof.
  intros l s. unfold seen_in. rewrite existsb_exists. split.
  - intros [x [X E]]. apply Nat.eqb_eq in E. subst. exact X.
  - intros H. exists l. split; [exact H|apply Nat.eqb_refl].
Qed.

Definition deg h l : nat := match cell_at h l with Some c => List.length (refs c) | None => 0 end.
Definition left_ h (seen dom : list loc) : nat := fold_right (fun l n => (if seen_in l seen then 0 else S (deg h l)) + n) 0 dom.

Lemma left_notin : forall h s l dom, ~ In l dom -> left_ h (l :: s) dom = left_ h s dom.
Proof.
  intros h s l dom N. induction dom as [|x dom IH]; [reflexivity|]. cbn [left_ fold_right]. fold (left_ h (l :: s) dom) (left_ h s dom).
  rewrite IH by (intros H; apply N; right; exact H). unfold seen_in. cbn [existsb].
  destruct (Nat.eqb x l) eqn:E; [|reflexivity]. apply Nat.eqb_eq in E. subst. exfalso. apply N. left. reflexivity.
Qed.

Lemma left_in : forall h s l dom, NoDup dom -> In l dom -> seen_in l s = false -> left_ h (l :: s) dom + S (deg h l) = left_ h s dom.
Proof.
  intros h s l dom ND. induction ND as [|x dom NX ND IH]; intros H E; [destruct H|]. cbn [left_ fold_right]. fold (left_ h (l :: s) dom) (left_ h s dom).
  destruct H as [-> | H].
  - rewrite left_notin, E by exact NX. unfold seen_in at 1. cbn [existsb]. rewrite Nat.eqb_refl. cbn [orb]. lia.
  - rewrite <- (IH H E). unfold seen_in at 1. cbn [existsb]. fold (seen_in x s). destruct (Nat.eqb x l) eqn:F.
    + apply Nat.eqb_eq in F. subst. contradiction.
    + cbn [orb]. lia.
Qed.

Lemma left_all : forall h x, left_ (x ++ h) [] (seq (List.length x) (List.length h)) = edges h.
Proof.
  induction h as [|c h IH]; intros x; [reflexivity|]. cbn [List.length seq left_ fold_right edges]. fold (edges h).
  fold (left_ (x ++ c :: h) [] (seq (S (List.length x)) (List.length h))).
  replace (x ++ c :: h) with ((x ++ [c]) ++ h) by (rewrite <- app_assoc; reflexivity).
  replace (S (List.length x)) with (List.length (x ++ [c])) by (rewrite app_length; cbn; lia). rewrite IH.
  unfold deg. rewrite at_old by (rewrite app_length; cbn; lia). rewrite at_new. cbn. lia.
Qed.

Section Reach.
Variable h : heap T.
Hypothesis S0 : sealed 0 h.

Lemma reach_spec : forall fuel todo seen, (forall l, In l todo -> l < List.length h) -> (forall l, In l seen -> l < List.length h) -> NoDup seen ->
  (forall l c y, In l seen -> cell_at h l = Some c -> In y (refs c) -> In y seen \/ In y todo) ->
  List.length todo + left_ h seen (seq 0 (List.length h)) < fuel ->
  let r := reach fuel h todo seen in
  (forall l, In l r -> l < List.length h) /\ NoDup r /\ (forall l, In l seen \/ In l todo -> In l r) /\
  (forall l c y, In l r -> cell_at h l = Some c -> In y (refs c) -> In y r).
Proof.
  induction fuel as [|n IH]; intros todo seen A B ND C L; [lia|]. cbn [reach]. destruct todo as [|l todo].
  - cbn zeta. split; [exact B|]. split; [exact ND|]. split; [intros l [H|[]]; exact H|]. intros l c y X E Y. destruct (C l c y X E Y) as [H|[]]. exact H.
  - cbn [List.length] in L. destruct (seen_in l seen) eqn:E.
    + apply seen_spec in E. destruct (IH todo seen) as [R1 [R2 [R3 R4]]]; auto; try lia.
      * intros. apply A. right. assumption.
      * intros k c y X F Y. destruct (C k c y X F Y) as [H|[<-|H]]; auto.
      * split; [exact R1|]. split; [exact R2|]. split; [|exact R4]. intros k [H|[<-|H]]; auto.
    + assert (LL : l < List.length h) by (apply A; left; reflexivity). destruct (at_ex h l LL) as [c Ec]. rewrite Ec.
      assert (LE : left_ h (l :: seen) (seq 0 (List.length h)) + S (deg h l) = left_ h seen (seq 0 (List.length h))).
      { apply left_in; [apply seq_NoDup|apply in_seq; lia|exact E]. }
      unfold deg in LE. rewrite Ec in LE.
      destruct (IH (refs c ++ todo) (l :: seen)) as [R1 [R2 [R3 R4]]].
      * intros k K. apply in_app_or in K as [K|K]; [|apply A; right; exact K]. apply (S0 l c); auto. lia.
      * intros k [<-|K]; auto.
      * constructor; [|exact ND]. intros H. apply seen_spec in H. congruence.
      * intros k c' y [<-|X] F Y.
        -- rewrite F in Ec. injection Ec as <-. right. apply in_or_app. auto.
        -- destruct (C k c' y X F Y) as [H|[<-|H]]; [left; right; exact H|left; left; reflexivity|right; apply in_or_app; auto].
      * rewrite app_length. unfold loc, heap in *. lia.
      * split; [exact R1|]. split; [exact R2|]. split; [|exact R4]. intros k [H|[<-|H]]; apply R3; [left; right; exact H|left; left; reflexivity|right; apply in_or_app; auto].
Qed.
End Reach.

Lemma place_lt : forall l s, In l s -> place l s < List.length s.
Proof.
  induction s as [|x s IH]; intros H; [destruct H|]. cbn. destruct (Nat.eqb x l) eqn:E; [lia|]. destruct H as [-> | H]; [rewrite Nat.eqb_refl in E; discriminate|].
  specialize (IH H). lia.
Qed.

Lemma place_nth : forall l s, In l s -> nth_error s (place l s) = Some l.
Proof.
  induction s as [|x s IH]; intros H; [destruct H|]. cbn. destruct (Nat.eqb x l) eqn:E; [apply Nat.eqb_eq in E; subst; reflexivity|].
  destruct H as [-> | H]; [rewrite Nat.eqb_refl in E; discriminate|]. cbn. auto.
Qed.

Lemma place_inj : forall k l s, In k s -> In l s -> place k s = place l s -> k = l.
Proof. intros k l s K L E. apply place_nth in K, L. rewrite E in K. congruence. Qed.

Lemma refs_relink : forall p c, refs (relink p c) = map p (refs c).
Proof.
  assert (O : forall (p : loc -> loc) (x : option loc), olist (option_map p x) = map p (olist x)) by (intros p [a|]; reflexivity).
  destruct c; cbn [refs relink map]; auto.
  - destruct o as [a1 a2 a3 a4 a5 a6 a7 a8 a9]. cbn. rewrite !map_app, !O. reflexivity.
  - rewrite !map_map. reflexivity.
Qed.

(** A deep copy is a new block that looks like what was copied. *)
Record copied h (l : loc) h' (l' : loc) (P : loc -> Prop) (p : loc -> loc) : Prop := {
  cp_iso : iso P p h h';
  cp_root : P l;
  cp_loc : l' = p l;
  cp_inj : forall x y, P x -> P y -> p x = p y -> x = y;
  cp_in : forall x, P x -> List.length h <= p x < List.length h';
  cp_below : forall n, keeps n h h';
  cp_block : block (List.length h) (List.length h') h' }.

Lemma deepcopy_spec : forall h l, sealed 0 h -> l < List.length h ->
  exists h' l' P p, deepcopy l h = (h', Ok l') /\ copied h l h' l' P p /\ (forall b, b <= List.length h -> sealed b h -> sealed b h').
Proof.
  intros h l S0 L. unfold deepcopy. set (s := reach _ _ _ _). set (p := fun x => List.length h + place x s).
  destruct (reach_spec h S0 (S (S (edges h))) [l] []) as [R1 [R2 [R3 R4]]].
  { intros x [<-|[]]. exact L. } { intros x []. } { constructor. } { intros x c y []. } { pose proof (left_all h []) as E. cbn [app List.length] in E. change (nat) with loc in *. unfold loc, heap in *. cbn [List.length]. lia. }
  fold s in R1, R2, R3, R4. set (f := fun x => match cell_at h x with Some c => relink p c | None => CList [] end).
  assert (AT : forall x, In x s -> cell_at (h ++ map f s) (p x) = Some (f x)).
  { intros x X. unfold cell_at, p. rewrite nth_error_app2 by lia. rewrite Nat.add_comm, Nat.add_sub, nth_error_map, place_nth by exact X. reflexivity. }
  assert (IN : forall x, In x s -> List.length h <= p x < List.length (h ++ map f s)).
  { intros x X. unfold p. rewrite app_length, map_length. pose proof (place_lt x s X). lia. }
  assert (BL : block (List.length h) (List.length (h ++ map f s)) (h ++ map f s)).
  { intros x X. rewrite app_length, map_length in X. assert (Y : exists y, nth_error s (x - List.length h) = Some y).
    { destruct (nth_error s (x - List.length h)) eqn:E; [eauto|]. apply nth_error_None in E. lia. }
    destruct Y as [y Y]. exists (f y). split.
    - unfold cell_at. rewrite nth_error_app2 by lia. rewrite nth_error_map, Y. reflexivity.
    - apply nth_error_In in Y. intros z Z. unfold f in Z. destruct (at_ex h y (R1 y Y)) as [c E]. rewrite E, refs_relink in Z.
      apply in_map_iff in Z as [w [<- W]]. apply IN. eapply R4; eassumption. }
  exists (h ++ map f s), (p l), (fun x => In x s), p. split; [reflexivity|]. split.
  - constructor; auto.
    + intros x X. destruct (at_ex h x (R1 x X)) as [c E]. exists c. split; [exact E|]. split; [rewrite AT by exact X; unfold f; rewrite E; reflexivity|].
      intros y Y. eapply R4; eassumption.
    + apply R3. right. left. reflexivity.
    + intros x y X Y E. apply (place_inj x y s X Y). unfold p in E. lia.
    + intros n. apply keeps_app.
  - intros b B SB x c X E y Y. destruct (le_lt_dec (List.length h) x) as [G|G].
    + pose proof (at_lt _ _ _ E) as M. destruct (BL x (conj G M)) as [c' [E' R']]. rewrite E in E'. injection E' as <-. specialize (R' y Y). split; [lia|exact (proj2 R')].
    + rewrite at_old in E by exact G. specialize (SB x c X E y Y). rewrite app_length. lia.
Qed.
End Basics.
