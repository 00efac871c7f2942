(** Proofs about the printed texts (C68). *)
From Coq Require Import String ZArith List Bool Ascii Permutation Lia Arith.
From Verif Require Import Base NdArray Config Spec Model Render Render_proofs Term Equation System Spec_engine HModel Visual Spec_visual.
From Verif Require NdArray_proofs Spec_model HModel_proofs Space_proofs Prime_proofs Engine_proofs Equation_proofs.
Import ListNotations.
Open Scope list_scope.
Open Scope string_scope.
Open Scope Z_scope.

(* ---------- lines ---------- *)

Definition noteol (c : ascii) : bool := negb (Ascii.eqb c (ascii_of_nat 10)).

Lemma concat_nil_cons : forall x l, String.concat "" (x :: l) = x ++ String.concat "" l.
Proof. intros x [|y l]; cbn [String.concat]; [rewrite app_s_nil; reflexivity|]. cbn. reflexivity. Qed.

Lemma text_cons : forall x l, text_of (x :: l) = x ++ newline ++ text_of l.
Proof. intros x l. unfold text_of. cbn [map]. rewrite concat_nil_cons, app_s_assoc. reflexivity. Qed.

Lemma text_app : forall a b, text_of (a ++ b)%list = text_of a ++ text_of b.
Proof.
  induction a as [|x a IH]; intros b; [reflexivity|]. cbn [List.app]. rewrite !text_cons, IH, !app_s_assoc. reflexivity.
Qed.

Lemma text_inj : forall l l', Forall (fun s => allc noteol s = true) l -> Forall (fun s => allc noteol s = true) l' ->
  text_of l = text_of l' -> l = l'.
Proof.
  induction l as [|x l IH]; intros [|y l'] H H' E.
  - reflexivity.
  - rewrite text_cons in E. destruct y; discriminate E.
  - rewrite text_cons in E. destruct x; discriminate E.
  - rewrite !text_cons in E. inversion H; subst. inversion H'; subst.
    destruct (split_stop noteol x y (newline ++ text_of l) (newline ++ text_of l')) as [-> E']; auto; [reflexivity|reflexivity|].
    cbn [append newline] in E'. injection E' as E'. f_equal. apply IH; auto.
Qed.

(* ---------- characters ---------- *)

Lemma allc_numch_eol : forall s, allc numch s = true -> allc noteol s = true.
Proof.
  intros s. apply allc_imp. intros c H. unfold noteol. destruct (Ascii.eqb_spec c (ascii_of_nat 10)) as [->|]; [|reflexivity].
  vm_compute in H. discriminate.
Qed.

Lemma join_eol : forall l, Forall (fun s => allc noteol s = true) l -> allc noteol (join l) = true.
Proof.
  induction l as [|x [|y l] IH]; intros H; [reflexivity|inversion H; auto|].
  inversion H; subst. change (join (x :: y :: l)) with (x ++ ", " ++ join (y :: l)). rewrite !allc_app, IH by auto.
  rewrite H2. reflexivity.
Qed.

Lemma num_eol : forall l, Forall (fun s => allc numch s = true /\ s <> "") l -> Forall (fun s => allc noteol s = true) l.
Proof. intros l. apply Forall_impl. intros s [H _]. apply allc_numch_eol; auto. Qed.

Lemma str_list_eol : forall l, Forall (fun s => allc noteol s = true) l -> allc noteol (str_list l) = true.
Proof. intros l H. unfold str_list. rewrite !allc_app, join_eol by auto. reflexivity. Qed.
Lemma str_tuple_eol : forall l, Forall (fun s => allc noteol s = true) l -> allc noteol (str_tuple l) = true.
Proof.
  intros l H. unfold str_tuple. destruct l as [|x [|y l]]; rewrite ?allc_app; rewrite ?join_eol by auto; try reflexivity.
  inversion H; subst. rewrite H2. reflexivity.
Qed.
Lemma halves_eol : forall v, allc noteol (str_list (map str_half v)) = true.
Proof. intros v. apply str_list_eol, num_eol, Forall_map_half. Qed.

Lemma config_eol : forall a, allc noteol (config_id a) = true.
Proof.
  intros a. unfold config_id. destruct (total a =? 0); [reflexivity|]. rewrite allc_app, str_list_eol by apply num_eol, Forall_map_int.
  rewrite <- (map_map Z.of_nat str_int), str_tuple_eol by apply num_eol, Forall_map_int. reflexivity.
Qed.

Lemma show_eol : forall {T} full (t : term T), allc noteol (show_term full t) = true.
Proof.
  intros T full t. assert (A : allc noteol (tid t) = true).
  { unfold tid, term_id, phonon_config_id. rewrite !allc_app, config_eol. destruct (t_f t); [cbn [f_arg_id]; rewrite halves_eol|]; reflexivity. }
  unfold show_term. destruct full; [|exact A]. rewrite !allc_app, A. unfold c_exp_id. rewrite halves_eol.
  destruct (t_g t); [cbn [g_arg_id]; rewrite halves_eol|]; reflexivity.
Qed.

(* ---------- terms ---------- *)

Lemma halves_split : forall v w r s, (str_list (map str_half v) ++ r)%string = (str_list (map str_half w) ++ s)%string -> v = w /\ r = s.
Proof.
  intros v w r s E. apply str_list_split in E; try apply Forall_map_half. destruct E as [E ->]. split; [|reflexivity].
  apply map_inj in E; [exact E|apply str_half_inj].
Qed.
Lemma f_split : forall f g r s, (f_arg_id f ++ r)%string = (f_arg_id g ++ s)%string -> option_map v2 f = option_map v2 g /\ r = s.
Proof.
  intros [f|] [g|] r s E; cbn [f_arg_id] in E.
  - apply halves_split in E. destruct E as [E ->]. cbn. rewrite E. auto.
  - discriminate E.
  - discriminate E.
  - cbn in E. injection E as ->. auto.
Qed.
Lemma g_split : forall f g r s, (g_arg_id f ++ r)%string = (g_arg_id g ++ s)%string -> option_map v2 f = option_map v2 g /\ r = s.
Proof.
  intros [f|] [g|] r s E; cbn [g_arg_id] in E.
  - apply halves_split in E. destruct E as [E ->]. cbn. rewrite E. auto.
  - discriminate E.
  - discriminate E.
  - cbn in E. injection E as ->. auto.
Qed.

Definition vt {T} (t : term T) : Prop := valid_cloud (cfg (t_cfg t)).

Lemma show_spec : forall {T} full (t t' : term T), vt t -> vt t' -> (show_term full t = show_term full t' <-> alike full t t').
Proof.
  intros T full t t' V V'. unfold alike, same_unknown. unfold show_term, tid. destruct full.
  - split.
    + intros E. unfold term_id in E. rewrite !app_s_assoc in E. apply term_id_split in E; auto. destruct E as [E1 E].
      apply f_split in E. destruct E as [E2 E]. apply g_split in E. destruct E as [E3 E]. unfold c_exp_id in E.
      assert (E4 : (str_list (map str_half (v2 (t_exp t))) ++ "" = str_list (map str_half (v2 (t_exp t'))) ++ "")%string) by (rewrite !app_s_nil; exact E).
      apply halves_split in E4. destruct E4 as [E4 _]. apply config_id_spec in E1; auto.
    + intros [[E1 E2] E3]. destruct (E3 eq_refl) as [E4 E5].
      assert (Et : term_id (cfg (t_cfg t)) (t_f t) = term_id (cfg (t_cfg t')) (t_f t')) by (apply term_id_spec; auto).
      rewrite Et. unfold c_exp_id. rewrite E5. f_equal. f_equal. destruct (t_g t), (t_g t'); cbn in E4 |- *; congruence.
  - rewrite term_id_spec by assumption. split; [intros H; split; [exact H|discriminate]|intros [H _]; exact H].
Qed.

(* ---------- sorting ---------- *)

Lemma insert_perm : forall {A} (x : Z * A) l, Permutation (insert_desc x l) (x :: l).
Proof.
  induction l as [|y l IH]; cbn [insert_desc]; [reflexivity|]. destruct (fst y <? fst x); [reflexivity|].
  rewrite IH. apply perm_swap.
Qed.
Lemma sorted_perm : forall {A} (l : list (Z * A)), Permutation (sorted_desc l) l.
Proof. induction l as [|x l IH]; cbn; [reflexivity|]. fold (sorted_desc l). rewrite insert_perm. constructor. exact IH. Qed.

Lemma insert_falling : forall {A} (x : Z * A) l, ~ In (fst x) (map fst l) -> falling l -> falling (insert_desc x l).
Proof.
  induction l as [|y l IH]; intros Nx F; cbn [insert_desc]; [constructor; constructor|].
  inversion F as [|? ? F1 F2]; subst. cbn in Nx. destruct (Z.ltb_spec (fst y) (fst x)) as [L|L].
  - constructor; [|exact F]. constructor; [exact L|]. eapply Forall_impl; [|exact F1]. cbn. intros z Hz. lia.
  - constructor; [|apply IH; tauto]. rewrite Forall_forall. intros z Hz. apply (Permutation_in _ (insert_perm x l)) in Hz.
    destruct Hz as [<-|Hz]; [|rewrite Forall_forall in F1; auto]. assert (fst y <> fst x) by tauto. lia.
Qed.
Lemma sorted_falling : forall {A} (l : list (Z * A)), NoDup (map fst l) -> falling (sorted_desc l).
Proof.
  induction l as [|x l IH]; intros D; [constructor|]. cbn in D. inversion D; subst. cbn. fold (sorted_desc l).
  apply insert_falling; [|apply IH; assumption]. intros H. apply H1. eapply Permutation_in; [|exact H]. apply Permutation_map, sorted_perm.
Qed.

(* ---------- blocks ---------- *)

Section B.
Context {T : Type}.
Variable full : bool.
Let id : term T -> string := show_term full.

Lemma texts_app : forall a b, texts (a ++ b)%list = texts a ++ texts b.
Proof. induction a as [|x a IH]; intros b; [reflexivity|]. cbn. fold (texts a) (texts (a ++ b)%list). rewrite IH, app_s_assoc. reflexivity. Qed.

Lemma texts_text : forall {A} (f : A -> string) (g : A -> list string) l, (forall x, f x = text_of (g x)) -> texts (map f l) = text_of (flat_map g l).
Proof.
  intros A f g l H. induction l as [|x l IH]; [reflexivity|]. cbn [map flat_map]. rewrite text_app, <- IH, <- H. reflexivity.
Qed.

Lemma print_text : forall s, print s = text_of [s].
Proof. intros s. rewrite text_cons. cbn. unfold print. reflexivity. Qed.

Lemma eq_text : forall e, show_equation full e = text_of (eq_lines id e).
Proof.
  intros e. unfold show_equation, eq_lines. change (id (e_index e) :: ?l) with ([id (e_index e)] ++ l)%list. rewrite text_app, <- print_text. f_equal.
  rewrite (texts_text _ (fun t => [String (ascii_of_nat 9) (String " " (id t))])); [|intros t; rewrite <- print_text; reflexivity].
  reflexivity.
Qed.

Lemma block_text : forall b, show_block full b = text_of (block_lines str_int id b).
Proof.
  intros b. unfold show_block, block_lines. rewrite !text_app. rewrite (texts_text _ (eq_lines id)) by apply eq_text.
  rewrite !text_cons. cbn [text_of map String.concat]. unfold print. rewrite !app_s_assoc. reflexivity.
Qed.

(* splitting lists of lines *)
Definition heads (c : ascii) (s : string) : bool := match s with EmptyString => false | String d _ => Ascii.eqb d c end.

Lemma id_head : forall t, heads "{" (id t) = true.
Proof. intros t. unfold id, show_term, tid, term_id, phonon_config_id. destruct full; reflexivity. Qed.

Lemma list_split : forall {A} (p : A -> bool) a b r s, forallb p a = true -> forallb p b = true ->
  match r with [] => True | x :: _ => p x = false end -> match s with [] => True | x :: _ => p x = false end ->
  (a ++ r)%list = (b ++ s)%list -> a = b /\ r = s.
Proof.
  intros A p. induction a as [|x a IH]; intros [|y b] r s Ha Hb Hr Hs E; cbn in *.
  - auto.
  - subst. cbn in Hr. apply andb_true_iff in Hb. destruct Hb. congruence.
  - subst. cbn in Hs. apply andb_true_iff in Ha. destruct Ha. congruence.
  - injection E as -> E. apply andb_true_iff in Ha. apply andb_true_iff in Hb. destruct (IH b r s) as [-> ->]; tauto.
Qed.

Definition vte (e : equation T) : Prop := vt (e_index e) /\ forall t, In t (e_terms e) -> vt t.

Lemma terms_alike : forall l l' : list (term T), (forall t, In t l -> vt t) -> (forall t, In t l' -> vt t) ->
  (map id l = map id l' <-> Forall2 (alike full) l l').
Proof.
  induction l as [|x l IH]; intros [|y l'] V V'; cbn.
  - split; auto.
  - split; intros H; inversion H.
  - split; intros H; inversion H.
  - split.
    + intros H. injection H as H1 H2. constructor; [apply show_spec; auto; [apply V|apply V']; left; auto|].
      apply IH; auto; intros t Ht; [apply V|apply V']; right; auto.
    + intros H. inversion H; subst. f_equal; [apply show_spec; auto; [apply V|apply V']; left; auto|].
      apply IH; auto; intros t Ht; [apply V|apply V']; right; auto.
Qed.

Lemma tabs_inj : forall l l' : list (term T),
  map (fun t => String (ascii_of_nat 9) (String " " (id t))) l = map (fun t => String (ascii_of_nat 9) (String " " (id t))) l' -> map id l = map id l'.
Proof.
  induction l as [|x l IH]; intros [|y l'] E; cbn [map] in *; try discriminate; [reflexivity|]. injection E as E1 E2. f_equal; auto.
Qed.

Definition notab (r : list string) : Prop := match r with [] => True | x :: _ => heads (ascii_of_nat 9) x = false end.

Lemma eq_split : forall e e' r r', notab r -> notab r' -> (eq_lines id e ++ r)%list = (eq_lines id e' ++ r')%list -> vte e -> vte e' ->
  alike_eq full e e' /\ r = r'.
Proof.
  intros e e' r r' Hr Hr' E [V1 V2] [V1' V2']. unfold eq_lines in E. cbn [List.app] in E. injection E as E1 E.
  apply (list_split (heads (ascii_of_nat 9))) in E; auto;
    try (rewrite forallb_forall; intros x Hx; apply in_map_iff in Hx; destruct Hx as [t [<- _]]; reflexivity).
  destruct E as [E ->]. split; [|reflexivity]. split; [apply show_spec; auto|]. apply terms_alike; auto. apply tabs_inj. exact E.
Qed.

Lemma notab_id : forall t l, notab (id t :: l).
Proof. intros t l. unfold notab. pose proof (id_head t) as H. destruct (id t) as [|c s]; [discriminate|]. cbn in *. apply Ascii.eqb_eq in H. subst c. reflexivity. Qed.

Lemma eqs_split : forall l l' r r', (forall e, In e l -> vte e) -> (forall e, In e l' -> vte e) ->
  (flat_map (eq_lines id) l ++ "" :: r)%list = (flat_map (eq_lines id) l' ++ "" :: r')%list -> Forall2 (alike_eq full) l l' /\ r = r'.
Proof.
  assert (B : forall t, id t <> "") by (intros t H; pose proof (id_head t) as I; rewrite H in I; discriminate).
  assert (NT : forall (l : list (equation T)) r, notab (flat_map (eq_lines id) l ++ "" :: r)%list).
  { intros [|e l] r; [reflexivity|]. apply notab_id. }
  induction l as [|e l IH]; intros [|e' l'] r r' V V' E.
  - cbn in E. injection E as ->. auto.
  - cbn in E. injection E as E _. symmetry in E. apply B in E. destruct E.
  - cbn in E. injection E as E _. apply B in E. destruct E.
  - cbn [flat_map] in E. rewrite <- !app_assoc in E.
    apply eq_split in E; [|apply NT|apply NT|apply V; left; reflexivity|apply V'; left; reflexivity].
    destruct E as [E1 E]. apply IH in E; [|intros; apply V; right; assumption|intros; apply V'; right; assumption].
    destruct E as [E2 ->]. auto.
Qed.

Definition alike_block (b b' : Z * list (equation T)) : Prop := fst b = fst b' /\ Forall2 (alike_eq full) (snd b) (snd b').
Definition vtb (b : Z * list (equation T)) : Prop := forall e, In e (snd b) -> vte e.

Lemma blocks_split : forall l l', (forall b, In b l -> vtb b) -> (forall b, In b l' -> vtb b) ->
  flat_map (block_lines str_int id) l = flat_map (block_lines str_int id) l' -> Forall2 alike_block l l'.
Proof.
  induction l as [|b l IH]; intros [|b' l'] V V' E; try (cbn in E; discriminate); [constructor|].
  cbn [flat_map] in E. unfold block_lines at 1 3 in E. rewrite <- !app_assoc in E. cbn [List.app] in E. injection E as E1 E.
  apply str_int_inj in E1. apply eqs_split in E; [|apply V; left; reflexivity|apply V'; left; reflexivity].
  destruct E as [E2 E]. injection E as E. constructor; [split; assumption|]. apply IH; [| |exact E]; intros; [apply V|apply V']; right; assumption.
Qed.

Lemma alike_lines : forall e e', vte e -> vte e' -> alike_eq full e e' -> eq_lines id e = eq_lines id e'.
Proof.
  intros e e' [V1 V2] [V1' V2'] [A1 A2]. unfold eq_lines. f_equal; [apply show_spec; auto|].
  apply terms_alike in A2; auto. revert A2. generalize (e_terms e) (e_terms e'). induction l as [|x l IH]; intros [|y l'] E; cbn [map] in *; try discriminate; [reflexivity|].
  injection E as E1 E2. rewrite E1. f_equal. apply IH. exact E2.
Qed.

Lemma alike_blocks : forall l l', (forall b, In b l -> vtb b) -> (forall b, In b l' -> vtb b) -> Forall2 alike_block l l' ->
  flat_map (block_lines str_int id) l = flat_map (block_lines str_int id) l'.
Proof.
  intros l l' V V' F. induction F as [|b b' l l' [A1 A2] F IH]; [reflexivity|]. cbn [flat_map]. rewrite IH by (intros; first [apply V; right; assumption|apply V'; right; assumption]).
  f_equal. unfold block_lines. rewrite A1. do 2 f_equal. pose proof (V b (or_introl eq_refl)) as W. pose proof (V' b' (or_introl eq_refl)) as W'. unfold vtb in W, W'. clear F IH V V' A1.
  revert A2 W W'. generalize (snd b) (snd b'). clear b b'. intros p p' A2. induction A2 as [|e e' m m' A A2 IH]; intros W W'; [reflexivity|]. cbn [flat_map]. rewrite (alike_lines e e') by (auto; first [apply W; left; reflexivity|apply W'; left; reflexivity]).
  f_equal. apply IH; intros; [apply W|apply W']; right; assumption.
Qed.

Lemma lines_eol : forall l : list (Z * list (equation T)), Forall (fun s => allc noteol s = true) (flat_map (block_lines str_int id) l).
Proof.
  intros l. apply Forall_forall. intros s Hs. apply in_flat_map in Hs. destruct Hs as [[n es] [_ Hs]]. unfold block_lines in Hs. cbn [fst snd List.app] in Hs.
  destruct Hs as [<-|[<-|Hs]]; [apply allc_numch_eol, str_int_numch|reflexivity|]. apply in_app_or in Hs. destruct Hs as [Hs|[<-|[<-|[]]]]; [|reflexivity|reflexivity].
  apply in_flat_map in Hs. destruct Hs as [e [_ [<-|Hs]]]; [apply show_eol|]. apply in_map_iff in Hs. destruct Hs as [t [<- _]]. exact (show_eol full t).
Qed.

(** falling lists with the same blocks *)
Lemma falling_in : forall (x : Z * list (equation T)) l, falling (x :: l) -> forall y, In y l -> fst y < fst x.
Proof. intros x l F y Hy. inversion F as [|? ? F1 _]; subst. rewrite Forall_forall in F1. apply F1. exact Hy. Qed.

Lemma falling_blocks : forall l l', falling l -> falling l' -> blocks_in full l l' ->
  (forall n es, In (n, es) l' -> exists es', In (n, es') l) -> Forall2 alike_block l l'.
Proof.
  induction l as [|[n es] l IH]; intros [|[n' es'] l'] F F' A B.
  - constructor.
  - destruct (B n' es' (or_introl eq_refl)) as [? []].
  - destruct (A n es (or_introl eq_refl)) as [? [[] _]].
  - assert (En : n = n').
    { destruct (A n es (or_introl eq_refl)) as [x [[H|H] _]]; [congruence|]. apply (falling_in _ _ F') in H.
      destruct (B n' es' (or_introl eq_refl)) as [y [H2|H2]]; [congruence|]. apply (falling_in _ _ F) in H2. cbn in *. lia. }
    subst n'. constructor.
    + split; [reflexivity|]. destruct (A n es (or_introl eq_refl)) as [x [[H|H] Q]]; [|apply (falling_in _ _ F') in H; cbn in H; lia].
      injection H as <-. exact Q.
    + apply IH; [inversion F; assumption|inversion F'; assumption| |].
      * intros k x Hx. destruct (A k x (or_intror Hx)) as [y [[H|H] Q]]; [|exists y; auto]. injection H as <- <-.
        apply (falling_in _ _ F) in Hx. cbn in Hx. lia.
      * intros k x Hx. destruct (B k x (or_intror Hx)) as [y [H|H]]; [|exists y; auto]. injection H as <- <-.
        apply (falling_in _ _ F') in Hx. cbn in Hx. lia.
Qed.

Lemma Forall2_in : forall {A B} (R : A -> B -> Prop) l l' x, Forall2 R l l' -> In x l -> exists y, In y l' /\ R x y.
Proof. intros A B R l l' x F. induction F as [|a b l l' H F IH]; intros []; [subst; exists b; split; [left; auto|auto]|]. destruct IH as [y [? ?]]; auto. exists y. split; [right|]; auto. Qed.

Lemma alike_sym : forall t t' : term T, alike full t t' -> alike full t' t.
Proof. intros t t' [[A B] C]. split; [split; [|congruence]; destruct A as [[? ?]|?]; [left; auto|right; congruence]|]. intros H. destruct (C H). split; congruence. Qed.
Lemma Forall2_flip' : forall {A} (R : A -> A -> Prop) l l', (forall x y, R x y -> R y x) -> Forall2 R l l' -> Forall2 R l' l.
Proof. intros A R l l' S F. induction F; constructor; auto. Qed.
Lemma alike_eq_sym : forall e e' : equation T, alike_eq full e e' -> alike_eq full e' e.
Proof. intros e e' [A B]. split; [apply alike_sym; exact A|]. apply Forall2_flip'; [apply alike_sym|exact B]. Qed.

Lemma clean_sorted : forall d : list (Z * list (equation T)), clean d -> forall b, In b (sorted_desc d) -> vtb b.
Proof.
  intros d [_ C] [n es] Hb e He. apply (Permutation_in _ (sorted_perm d)) in Hb. destruct (C n es e Hb He). split; assumption.
Qed.

Lemma visualize_lines : forall d : list (Z * list (equation T)), visualize full (Some d) = Ok (text_of (flat_map (block_lines str_int id) (sorted_desc d))).
Proof. intros d. cbn. f_equal. apply texts_text. apply block_text. Qed.

Lemma visualize_spec : forall d d' : list (Z * list (equation T)), clean d -> clean d' ->
  (visualize full (Some d) = visualize full (Some d') <-> blocks_in full d d' /\ blocks_in full d' d).
Proof.
  intros d d' C C'. rewrite !visualize_lines. pose proof (sorted_perm d) as P. pose proof (sorted_perm d') as P'. split.
  - intros E. injection E as E. apply text_inj in E; try apply lines_eol.
    apply blocks_split in E; [|apply clean_sorted; exact C|apply clean_sorted; exact C'].
    assert (E' : Forall2 alike_block (sorted_desc d') (sorted_desc d)).
    { apply Forall2_flip'; [|exact E]. intros x y [H1 H2]. split; [congruence|]. apply Forall2_flip'; [apply alike_eq_sym|exact H2]. }
    split; intros n es H.
    + apply (Permutation_in _ (Permutation_sym P)) in H. destruct (Forall2_in _ _ _ _ E H) as [[n' es'] [H1 [H2 H3]]]. cbn in H2, H3. subst n'.
      exists es'. split; [apply (Permutation_in _ P'); exact H1|exact H3].
    + apply (Permutation_in _ (Permutation_sym P')) in H. destruct (Forall2_in _ _ _ _ E' H) as [[n' es'] [H1 [H2 H3]]]. cbn in H2, H3. subst n'.
      exists es'. split; [apply (Permutation_in _ P); exact H1|exact H3].
  - intros [A B]. do 2 f_equal. apply alike_blocks; [apply clean_sorted; exact C|apply clean_sorted; exact C'|].
    apply falling_blocks; [apply sorted_falling, C|apply sorted_falling, C'| |].
    + intros n es H. apply (Permutation_in _ P) in H. destruct (A n es H) as [es' [H1 H2]]. exists es'. split; [|exact H2]. apply (Permutation_in _ (Permutation_sym P')). exact H1.
    + intros n es H. apply (Permutation_in _ P') in H. destruct (B n es H) as [es' [H1 _]]. exists es'. apply (Permutation_in _ (Permutation_sym P)). exact H1.
Qed.
End B.

(* ---------- the blocks of Systems are clean ---------- *)

Section S.
Context {T : Type}.
Variables (m : model T) (ae : Z).
Hypothesis G : good_model m ae.
Variable ord : string -> list vec -> list vec.
Hypothesis P : forall k l, Permutation (ord k l) l.
Variable s : system T.
Hypothesis Es : prime_system ord m = Ok s.

Lemma clean_eqs : clean (s_eqs s).
Proof.
  split.
  - destruct (Engine_proofs.green_block m ae G ord P s Es) as [q [_ [_ [_ [_ [l [El [Pl N]]]]]]]].
    rewrite El, map_app. apply NdArray_proofs.NoDup_app; [exact N|repeat constructor; intros []|].
    intros x H1 H2. destruct H2 as [<-|[]]. cbn [fst] in H1. apply in_map_iff in H1. destruct H1 as [kv [E H1]].
    rewrite Forall_forall in Pl. apply Pl in H1. lia.
  - intros n es e Hn He. destruct (Engine_proofs.q_valid m ae G ord P s Es n es e Hn He) as [V1 [_ V2]]. split; [exact V1|]. intros t Ht. apply V2. exact Ht.
Qed.

Lemma clean_gen : clean (s_gen s).
Proof.
  destruct (Engine_proofs.s_is m ae G ord P s Es) as [d [Ed ->]]. cbn [s_gen]. destruct (Prime_proofs.d_spec m ae G d Ed) as [K D]. split.
  - unfold Prime_proofs.genl. rewrite map_app, map_map. cbn [fst map]. change (map (fun x : Z * list config => fst x) d) with (map fst d). rewrite K.
    apply NdArray_proofs.NoDup_app; [apply Space_proofs.NoDup_range|repeat constructor; intros []|]. intros x H1 [<-|[]]. apply Space_proofs.In_range in H1. lia.
  - intros n es e Hn He. assert (A : In e (flat_map snd (Prime_proofs.genl m ae d))) by (apply in_flat_map; exists (n, es); auto).
    apply (Prime_proofs.In_allg m ae G d Ed) in A. destruct A as [->|[a [Sa ->]]]; cbn [Prime_proofs.green Prime_proofs.geq e_index e_terms].
    + split; [apply Prime_proofs.vac_valid|]. intros t Ht. destruct (Prime_proofs.green_terms_sound m ae G t Ht) as [h [_ [_ [_ [_ [_ [Sc _]]]]]]].
      apply (Equation_proofs.space_unfold m ae _ Sc).
    + split; [apply (Equation_proofs.space_unfold m ae a Sa)|]. intros t Ht.
      destruct (Equation_proofs.gen_term_sound m ae G a t Sa Ht) as [h [x [e [mult [kd [_ [_ [[s0 [V _]] _]]]]]]]]. exact V.
Qed.
End S.

(* ---------- grouping ---------- *)

Section D.
Context {T : Type}.
Definition groups (l : list (hterm T)) : list (nat * list (hterm T)) := fold_left (fun d t => put_term t d) l [].
Definition of_index (i : nat) (l : list (hterm T)) : list (hterm T) := filter (fun h => Nat.eqb (ht_index h) i) l.

Lemma groups_snoc : forall l h, groups (l ++ [h])%list = put_term h (groups l).
Proof. intros l h. unfold groups. rewrite fold_left_app. reflexivity. Qed.

Lemma put_keys : forall (h : hterm T) d, (In (ht_index h) (map fst d) /\ map fst (put_term h d) = map fst d) \/
  (~ In (ht_index h) (map fst d) /\ map fst (put_term h d) = (map fst d ++ [ht_index h])%list).
Proof.
  induction d as [|[i l] d IH]; cbn [put_term map fst List.app]; [right; auto|].
  destruct (Nat.eqb_spec i (ht_index h)) as [E|E]; [left; cbn; auto|]. cbn [map fst].
  destruct IH as [[I ->]|[I ->]]; [left; cbn; auto|right; cbn; split; [|reflexivity]]. intros [H|H]; auto.
Qed.

Lemma put_groups : forall (h : hterm T) (d : list (nat * list (hterm T))) l, NoDup (map fst d) ->
  (forall i ts, In (i, ts) d -> ts = of_index i l) -> (~ In (ht_index h) (map fst d) -> of_index (ht_index h) l = []) ->
  forall i ts, In (i, ts) (put_term h d) -> ts = of_index i (l ++ [h])%list.
Proof.
  induction d as [|[j us] d IH]; intros l N H H0 i ts Hi; cbn [put_term] in Hi; unfold of_index in *; rewrite filter_app; cbn [filter].
  - destruct Hi as [E|[]]. injection E as <- <-. rewrite Nat.eqb_refl, H0 by (intros []). reflexivity.
  - cbn [map fst] in N. inversion N as [|? ? N1 N2]; subst. destruct (Nat.eqb_spec j (ht_index h)) as [E|E].
    + destruct Hi as [Hi|Hi].
      * injection Hi as <- <-. rewrite (H j us (or_introl eq_refl)), E, Nat.eqb_refl. reflexivity.
      * destruct (Nat.eqb_spec (ht_index h) i) as [E2|E2]; [exfalso; apply N1; rewrite E, E2; apply (in_map fst) in Hi; exact Hi|].
        rewrite app_nil_r. apply H. right. exact Hi.
    + destruct Hi as [Hi|Hi].
      * injection Hi as <- <-. destruct (Nat.eqb_spec (ht_index h) j) as [E2|E2]; [congruence|]. rewrite app_nil_r. apply H. left. reflexivity.
      * rewrite (IH l N2) with (i := i) (ts := ts); [rewrite filter_app; reflexivity| | |exact Hi].
        -- intros k vs Hk. apply H. right. exact Hk.
        -- intros K. apply H0. cbn. intros [K2|K2]; auto.
Qed.

Lemma groups_spec : forall l, NoDup (map fst (groups l)) /\ (forall i, In i (map fst (groups l)) <-> exists h, In h l /\ ht_index h = i) /\
  forall i ts, In (i, ts) (groups l) -> ts = of_index i l.
Proof.
  induction l as [|h l IH] using rev_ind.
  - split; [constructor|]. split; [intros i; split; [intros []|intros [h [[] _]]]|intros i ts []].
  - rewrite groups_snoc. destruct IH as [N [I H]].
    assert (H0 : ~ In (ht_index h) (map fst (groups l)) -> of_index (ht_index h) l = []).
    { intros K. unfold of_index. destruct (filter _ l) as [|x r] eqn:E; [reflexivity|]. exfalso. apply K, I. exists x.
      assert (Hx : In x (x :: r)) by (left; reflexivity). rewrite <- E in Hx. apply filter_In in Hx. destruct Hx as [H1 H2]. apply Nat.eqb_eq in H2. auto. }
    split; [|split].
    + destruct (put_keys h (groups l)) as [[_ ->]|[K ->]]; [exact N|]. apply NdArray_proofs.NoDup_app; [exact N|repeat constructor; intros []|].
      intros x Hx [<-|[]]. auto.
    + intros i. transitivity (In i (map fst (groups l)) \/ ht_index h = i).
      * destruct (put_keys h (groups l)) as [[K ->]|[K ->]]; [split; [tauto|intros [X|<-]; auto]|]. rewrite in_app_iff. cbn. tauto.
      * rewrite I. split; [intros [[x [H1 H2]]|E]; [exists x; rewrite in_app_iff; auto|exists h; rewrite in_app_iff; cbn; auto]|].
        intros [x [H1 H2]]. apply in_app_iff in H1. destruct H1 as [H1|[<-|[]]]; [left; exists x; auto|right; exact H2].
    + apply put_groups; assumption.
Qed.

Lemma groups_keys : forall l, groups l = map (fun i => (i, of_index i l)) (map fst (groups l)).
Proof.
  intros l. destruct (groups_spec l) as [_ [_ H]]. rewrite map_map. erewrite <- map_id at 1. apply map_ext_in. intros [i ts] Hi. cbn. rewrite <- (H i ts Hi). reflexivity.
Qed.

(** terms of one index *)
Lemma keys_same : forall ts l i, (forall h, In h ts -> ht_index h = i) -> In i (map fst (groups l)) -> map fst (groups (l ++ ts)%list) = map fst (groups l).
Proof.
  induction ts as [|h ts IH]; intros l i Ht Hi; [rewrite app_nil_r; reflexivity|].
  change (h :: ts) with ([h] ++ ts)%list. rewrite app_assoc.
  assert (E : map fst (groups (l ++ [h])%list) = map fst (groups l)).
  { rewrite groups_snoc. destruct (put_keys h (groups l)) as [[_ E]|[K _]]; [exact E|]. rewrite (Ht h (or_introl eq_refl)) in K. contradiction. }
  rewrite (IH _ i); [exact E|intros x Hx; apply Ht; right; exact Hx|rewrite E; exact Hi].
Qed.
Lemma keys_new : forall ts l i, ts <> [] -> (forall h, In h ts -> ht_index h = i) -> ~ In i (map fst (groups l)) ->
  map fst (groups (l ++ ts)%list) = (map fst (groups l) ++ [i])%list.
Proof.
  intros [|h ts] l i Hn Ht Hi; [congruence|]. change (h :: ts) with ([h] ++ ts)%list. rewrite app_assoc.
  assert (E : map fst (groups (l ++ [h])%list) = (map fst (groups l) ++ [i])%list).
  { rewrite groups_snoc. destruct (put_keys h (groups l)) as [[K _]|[_ E]]; rewrite (Ht h (or_introl eq_refl)) in *; [contradiction|exact E]. }
  rewrite (keys_same ts _ i); [exact E|intros x Hx; apply Ht; right; exact Hx|rewrite E; apply in_app_iff; right; left; reflexivity].
Qed.
Lemma keys_le : forall ts l i, (forall h, In h ts -> ht_index h = i) -> (List.length (groups (l ++ ts)%list) <= S (List.length (groups l)))%nat.
Proof.
  intros ts l i Ht. rewrite <- !(map_length fst). destruct ts as [|h ts]; [rewrite app_nil_r; lia|].
  destruct (in_dec Nat.eq_dec i (map fst (groups l))) as [H|H]; [rewrite (keys_same _ l i Ht H); lia|].
  assert (Hne : h :: ts <> []) by discriminate. rewrite (keys_new _ l i Hne Ht H), app_length. cbn. lia.
Qed.
End D.

Section M.
Context {T : Type}.
Variable N : numops T.
Variables (e2 : T -> string) (st : hterm T -> string).

(** never an IndexError *)
Lemma get_terms_index : forall dim c g i f ts, get_terms N dim c g i f = Some ts -> forall h, In h ts -> ht_index h = i.
Proof.
  intros dim c g i f ts E h Hh. unfold get_terms in E.
  destruct (String.eqb c "Holstein"); [injection E as <-; cbn [In] in Hh; intuition subst; reflexivity|].
  destruct (String.eqb c "EdwardsFermionBoson"); [injection E as <-; cbn [In] in Hh; intuition subst; reflexivity|].
  destruct (String.eqb c "BondPeierls"); [injection E as <-; cbn [In] in Hh; intuition subst; reflexivity|].
  destruct (String.eqb c "Peierls"); [injection E as <-; cbn [In] in Hh; intuition subst; reflexivity|discriminate].
Qed.

Definition ngroups (h : hamiltonian T) : nat := List.length (get_dict_rep h).

Lemma ham_add_groups : forall h c i f cs dcs mu logs h', ham_add N h c i f cs dcs mu = Ok (logs, h') -> (ngroups h' <= S (ngroups h))%nat.
Proof.
  intros h c i f cs dcs mu logs h' E. unfold ham_add in E.
  assert (A : forall g, match get_terms N (h_dim h) c (n_mul N g mu) (Z.to_nat i) f with
    | None => Ok ([LError; LDebug], h)
    | Some ts => _ <- guard (0 <=? i) SystemExit ;;
      Ok ([LDebug], mkHam (h_terms h ++ ts) (if existsb (n_eqb N f) (h_freqs h) then h_freqs h else (h_freqs h ++ [f])%list) (h_dim h) (h_hop h)) end
    = Ok (logs, h') -> (ngroups h' <= S (ngroups h))%nat).
  { intros g Eg. destruct (get_terms N (h_dim h) c (n_mul N g mu) (Z.to_nat i) f) as [ts|] eqn:Et; [|injection Eg as _ <-; lia].
    unfold guard in Eg. destruct (0 <=? i); cbn in Eg; [|discriminate]. injection Eg as _ <-. unfold ngroups, get_dict_rep. cbn [h_terms].
    apply (keys_le ts (h_terms h) (Z.to_nat i)). eapply get_terms_index. exact Et. }
  destruct (match cs, dcs with Some g, None => Ok g | None, Some lam => model_coupling_map N c (h_hop h) f lam | _, _ => Err ValueError end) as [g|x].
  - exact (A g E).
  - destruct x; try discriminate. injection E as _ <-. lia.
Qed.

Definition fits (m : model T) : Prop := (ngroups (m_ham m) <= List.length (m_pe m))%nat /\ List.length (m_pe m) = List.length (m_pn m).

Lemma called_fits : forall m, called N m -> fits m.
Proof.
  intros m C. induction C as [hop lat temp mps dim|m a logs m' C IH E|m x C IH|m x C IH|m x C IH|m x C IH].
  - split; cbn; lia.
  - unfold model_add in E. set (hot := n_ltb N (n_0 N) (m_temp m)) in *.
    destruct (hot && (is_none (a_Mtfd a) || is_none (a_Ntfd a))); [injection E as _ <-; exact IH|].
    destruct ((a_N a <? 1) || (a_M a <? 1)); [injection E as _ <-; exact IH|].
    destruct (lt1 (a_Mtfd a) || lt1 (a_Ntfd a)); [injection E as _ <-; exact IH|].
    destruct (negb (xorb (is_none (a_cs a)) (is_none (a_dcs a)))); [injection E as _ <-; exact IH|].
    destruct (match a_override a with Some o => hot && Z.odd o | None => false end); [injection E as _ <-; exact IH|].
    destruct (tfd_prefactors N (m_temp m) (a_freq a)) as [V Vt]. cbv zeta in E. destruct IH as [F1 F2].
    destruct (ham_add N (m_ham m) (a_type a) _ (a_freq a) (a_cs a) (a_dcs a) V) as [[l1 h1]|x] eqn:E1; cbn [bind] in E; [|discriminate].
    apply ham_add_groups in E1. destruct hot.
    + destruct (ham_add N h1 (a_type a) _ _ (a_cs a) (a_dcs a) Vt) as [[l2 h2]|x] eqn:E2; cbn [bind] in E; [|discriminate].
      apply ham_add_groups in E2. destruct (a_Mtfd a), (a_Ntfd a); try discriminate. injection E as _ <-. split; cbn [m_ham m_pe m_pn]; rewrite !app_length; cbn; lia.
    + injection E as _ <-. split; cbn [m_ham m_pe m_pn]; rewrite !app_length; cbn; lia.
  - unfold set_temperature. destruct x as [v|]; [|exact IH]. destruct (n_ltb N v (n_0 N)); exact IH.
  - unfold set_lattice. destruct x as [v|]; [|exact IH]. destruct (n_ltb N v (n_0 N) || n_eqb N v (n_0 N)); exact IH.
  - unfold set_absolute_extent. destruct (Nat.ltb 1 (List.length (m_pe m))); exact IH.
  - exact IH.
Qed.

Lemma show_types_ok : forall m d ii, (ii + List.length d <= List.length (m_pe m))%nat -> List.length (m_pe m) = List.length (m_pn m) ->
  exists s, show_types st m ii d = Ok s.
Proof.
  intros m. induction d as [|[i ts] d IH]; intros ii L E; cbn [show_types List.length] in *; [eexists; reflexivity|].
  destruct (nth_error (m_pe m) ii) as [M|] eqn:E1; [|apply nth_error_None in E1; lia].
  destruct (nth_error (m_pn m) ii) as [Nn|] eqn:E3; [|apply nth_error_None in E3; lia].
  destruct (IH (S ii)) as [s Hs]; [lia|exact E|]. rewrite Hs. cbn [bind]. eexists. reflexivity.
Qed.

Lemma called_prints : forall m, called N m -> exists s, model_visualize e2 st m = Ok s.
Proof.
  intros m C. apply called_fits in C. destruct C as [F1 F2]. unfold model_visualize. destruct (Nat.eqb (List.length (m_pe m)) 0); [eexists; reflexivity|].
  destruct (show_types_ok m (get_dict_rep (m_ham m)) 0) as [s ->]; [exact F1|exact F2|]. cbn [bind]. eexists. reflexivity.
Qed.

(** models of successful calls: types in order *)
Lemma operators_nonempty : forall dim c g i f ts, Spec_model.supported c -> Spec_model.operators N dim c g i f ts -> ts <> [].
Proof. intros dim c g i f ts Sp O ->. destruct (HModel_proofs.operators_dags N dim c g i f [] Plus Sp O) as [h [[] _]]. Qed.
Lemma operators_index : forall dim c g i f ts, Spec_model.operators N dim c g i f ts -> forall h, In h ts -> ht_index h = i.
Proof. intros dim c g i f ts [_ O] h Hh. apply O in Hh. destruct Hh as [psi [phi [d [s [_ ->]]]]]. reflexivity. Qed.

Lemma built_keys : Spec_model.num_ok N -> forall dim m fs cs, Spec_model.built N dim m fs cs ->
  map fst (groups (h_terms (m_ham m))) = seq 0 (m_ntypes m) /\ List.length (m_pe m) = m_ntypes m /\ List.length (m_pn m) = m_ntypes m.
Proof.
  intros K dim m fs cs B. induction B as [hop lat temp mps|m fs cs a logs m' B IH E L O|m fs cs x B IH|m fs cs x B IH|m fs cs x B IH|m fs cs x B IH].
  - repeat split.
  - destruct (HModel_proofs.add_outcome_any N K m a logs m' E L) as [Sp [A [g [Gv D]]]]. unfold Spec_model.added in D. rewrite O in D. cbv zeta in D.
    destruct D as [_ [_ [_ [_ [_ [_ [ts [Ot D]]]]]]]]. destruct IH as [IH [L1 L2]].
    assert (NI : forall k, (m_ntypes m <= k)%nat -> ~ In k (seq 0 (m_ntypes m))) by (intros k Hk Hi; apply in_seq in Hi; lia).
    assert (K1 : map fst (groups (h_terms (m_ham m) ++ ts)) = seq 0 (S (m_ntypes m))).
    { rewrite (keys_new ts _ (m_ntypes m)); [rewrite IH, seq_S; reflexivity|eapply operators_nonempty; eassumption|eapply operators_index; eassumption|rewrite IH; apply NI; lia]. }
    destruct (n_ltb N (n_0 N) (m_temp m)).
    + destruct D as [Mt [Nt [ts' [fr [_ [_ [Ot' [-> [-> [-> [-> _]]]]]]]]]]]. rewrite app_assoc, !app_length, L1, L2. split; [|split; cbn; lia].
      rewrite (keys_new ts' _ (S (m_ntypes m))); [rewrite K1, <- seq_S; reflexivity|eapply operators_nonempty; eassumption|eapply operators_index; eassumption|].
      rewrite K1. intros H. apply in_seq in H. lia.
    + destruct D as [-> [-> [-> [-> _]]]]. rewrite !app_length, L1, L2. split; [exact K1|split; cbn; lia].
  - unfold set_temperature. destruct x as [v|]; [|exact IH]. destruct (n_ltb N v (n_0 N)); exact IH.
  - unfold set_lattice. destruct x as [v|]; [|exact IH]. destruct (n_ltb N v (n_0 N) || n_eqb N v (n_0 N)); exact IH.
  - unfold set_absolute_extent. destruct (Nat.ltb 1 (List.length (m_pe m))); exact IH.
  - exact IH.
Qed.

Lemma show_types_text : forall m n ii, (ii + n <= List.length (m_pe m))%nat -> List.length (m_pe m) = List.length (m_pn m) ->
  show_types st m ii (map (fun i => (i, of_index i (h_terms (m_ham m)))) (seq ii n)) = Ok (text_of (flat_map (type_lines str_int st m) (seq ii n))).
Proof.
  intros m. induction n as [|n IH]; intros ii L E; [reflexivity|]. cbn [seq map show_types flat_map].
  destruct (nth_error (m_pe m) ii) as [M|] eqn:E1; [|apply nth_error_None in E1; lia].
  destruct (nth_error (m_pn m) ii) as [Nn|] eqn:E3; [|apply nth_error_None in E3; lia].
  rewrite IH by lia. cbn [bind]. rewrite text_app. do 2 f_equal. unfold show_type, type_lines. rewrite text_cons.
  rewrite (nth_error_nth _ _ 0 E1), (nth_error_nth _ _ 0 E3). 
  assert (X : forall l, texts (map (fun h => print ("    " ++ st h)) l) = text_of (map (fun h => "    " ++ st h) l)).
  { intros l. rewrite (texts_text _ (fun h => ["    " ++ st h])); [reflexivity|]. intros h. rewrite <- print_text. reflexivity. }
  rewrite X. unfold print. rewrite !app_s_assoc. reflexivity.
Qed.

Lemma head_text : forall m, show_head e2 m = text_of (head_lines str_int e2 m).
Proof. intros m. unfold show_head. change (map print ?l) with (map print (head_lines str_int e2 m)). rewrite (texts_text print (fun s => [s])) by apply print_text. f_equal. Qed.

Lemma built_text : Spec_model.num_ok N -> forall dim m fs cs, Spec_model.built N dim m fs cs -> (0 < m_ntypes m)%nat ->
  model_visualize e2 st m = Ok (text_of (head_lines str_int e2 m ++ ["Terms:"] ++ flat_map (type_lines str_int st m) (seq 0 (m_ntypes m)))%list).
Proof.
  intros K dim m fs cs B Hn. destruct (built_keys K dim m fs cs B) as [Hk [L1 L2]]. unfold model_visualize.
  destruct (Nat.eqb_spec (List.length (m_pe m)) 0) as [E|_]; [lia|]. change (get_dict_rep (m_ham m)) with (groups (h_terms (m_ham m))). rewrite groups_keys, Hk.
  rewrite show_types_text by lia. cbn [bind]. rewrite !text_app, head_text, <- print_text. reflexivity.
Qed.
End M.
