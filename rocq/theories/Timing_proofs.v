(** Lemmas for C79. *)
From Coq Require Import String Ascii ZArith QArith Qabs Qreals Reals List Bool Lia Lra.
From Verif Require Import Base Render Render_proofs Keys Keys_proofs Names_proofs Spec_names Model Space Equation System Ring Petsc Physics Timing Spec_timing.
From Verif Require Logger.
Import ListNotations.
Open Scope list_scope.
Open Scope Z_scope.

Definition hundredths (x : Q) : Z := round_half_even (Z.abs (Qnum x) * 100) (Z.pos (Qden x)).

Lemma hundredths_nonneg : forall x, 0 <= hundredths x.
Proof.
  intros x. unfold hundredths, round_half_even.
  assert (D : 0 <= Z.abs (Qnum x) * 100 / Z.pos (Qden x)) by (apply Z.div_pos; lia).
  destruct (_ <? _); [exact D|]. destruct (_ <? _); [lia|]. destruct (Z.even _); lia.
Qed.

Lemma read_fmt2 : forall x, read_decimal (fmt2 x) = Some (Qnum x <? 0, hundredths x, 2%nat).
Proof.
  intros x. unfold fmt2. fold (hundredths x). pose proof (hundredths_nonneg x) as U. assert (T : 0 < 100) by lia.
  pose proof (Z.div_pos (hundredths x) 100 U T) as D. pose proof (Z.mod_pos_bound (hundredths x) 100 T) as M.
  assert (G : forall neg : bool, match at_point (append (str_int (hundredths x / 100)) (append "." (digits 2 (hundredths x mod 100)))) with
    | Some (a, b) => match digits_value 0 (a ++ b) with Some v => Some (neg, v, String.length b) | None => None end | None => None end = Some (neg, hundredths x, 2%nat)).
  { intros neg. change (append "." (digits 2 (hundredths x mod 100))) with (String "." (digits 2 (hundredths x mod 100))).
    rewrite point_digits by (apply str_int_nonneg_digits; exact D). rewrite dv_app, dv_int by exact D.
    destruct (dv_digits 2 (hundredths x mod 100) (hundredths x / 100)) as [A B]; [change (10 ^ Z.of_nat 2) with 100; exact M|]. rewrite A, B.
    change (10 ^ Z.of_nat 2) with 100. rewrite (Z.div_mod (hundredths x) 100) at 3 by lia. do 3 f_equal. ring. }
  pose proof (fun r => str_int_head (hundredths x / 100) (append "." (digits 2 (hundredths x mod 100))) r D) as H.
  remember (append (str_int (hundredths x / 100)) (append "." (digits 2 (hundredths x mod 100)))) as t eqn:E. clear E.
  unfold read_decimal. destruct (Qnum x <? 0); cbn [append]; [apply G|]. destruct t as [|c r]; [apply (G false)|].
  assert (N : c <> "-"%char) by (intros ->; exact (H r eq_refl)).
  destruct c as [[] [] [] [] [] [] [] []]; try apply (G false). contradiction N. reflexivity.
Qed.

(** The number shown, with its sign. *)
Definition rounded (x : Q) : Q := ((if (Qnum x <? 0)%Z then - (1) else 1) * (inject_Z (hundredths x) / 100))%Q.
Lemma rounded_near : forall x, (Qabs (x - rounded x) <= 1 # 200)%Q.
Proof.
  intros [a p]. unfold rounded, hundredths. cbn [Qnum Qden].
  pose proof (round_near (Z.abs a * 100) (Z.pos p) ltac:(lia)) as A.
  remember (round_half_even (Z.abs a * 100) (Z.pos p)) as n. clear Heqn.
  apply Qabs_Qle_condition. unfold Qle, Qminus, Qplus, Qopp, Qmult, Qdiv, Qinv, inject_Z. cbn [Qnum Qden].
  set (d := Z.pos p) in *. assert (D : 0 < d) by (unfold d; lia). destruct (Z.ltb_spec a 0); cbn [Qnum Qden Qopp Z.opp]; rewrite ?Pos2Z.inj_mul; fold d; split; cbn [Qnum Qden Qmult Pos.mul]; nia.
Qed.

Lemma below_spec : forall x y, below x y = true <-> (x < y)%Q.
Proof.
  intros x y. unfold below. rewrite negb_true_iff. split; intros H.
  - apply Qnot_le_lt. intros L. apply Qle_bool_iff in L. congruence.
  - destruct (Qle_bool y x) eqn:E; [|reflexivity]. apply Qle_bool_iff in E. exfalso. apply (Qlt_not_le _ _ H E).
Qed.
Lemma below_false : forall x y, below x y = false <-> (y <= x)%Q.
Proof.
  intros x y. split; intros H.
  - apply Qnot_lt_le. intros L. apply below_spec in L. congruence.
  - destruct (below x y) eqn:E; [|reflexivity]. apply below_spec in E. exfalso. apply (Qlt_not_le _ _ E H).
Qed.

Lemma elapsed_units : forall dt x u, elapsed_time dt = (x, u) -> exists sec, shown_in dt u sec /\ (0 < sec)%Q /\ (x == dt / sec)%Q.
Proof.
  intros dt x u H. unfold elapsed_time in H.
  destruct (below dt 10) eqn:A; [|destruct (below dt 600) eqn:B; [|destruct (below dt 36000) eqn:C]]; injection H as <- <-;
    repeat match goal with E : below _ _ = true |- _ => apply below_spec in E | E : below _ _ = false |- _ => apply below_false in E end.
  - exists 1%Q. split; [left; auto|]. split; [reflexivity|]. field.
  - exists 60%Q. split; [right; left; auto|]. split; [reflexivity|]. reflexivity.
  - exists 3600%Q. split; [right; right; left; auto|]. split; [reflexivity|]. reflexivity.
  - exists 86400%Q. split; [right; right; right; auto|]. split; [reflexivity|]. reflexivity.
Qed.

Lemma stamp : forall dt msg, exists v, stamped dt msg (adjust_log_msg_for_time msg (Some dt)) v.
Proof.
  intros dt msg. unfold adjust_log_msg_for_time. destruct (elapsed_time dt) as [x u] eqn:E.
  destruct (elapsed_units dt x u E) as [sec [S [P Q]]].
  exists (rounded x * sec)%Q. exists (fmt2 x), u, sec, (Qnum x <? 0), (hundredths x).
  split; [reflexivity|]. split; [apply read_fmt2|]. split; [apply hundredths_nonneg|]. split; [reflexivity|]. split.
  - rewrite <- neg_iff. rewrite Q. split; intros H.
    + apply Qnot_le_lt. intros L. apply (Qlt_not_le _ _ H). apply Qle_shift_div_l; [exact P|]. rewrite Qmult_0_l. exact L.
    + apply Qlt_shift_div_r; [exact P|]. rewrite Qmult_0_l. exact H.
  - split; [exact S|].
    assert (W : (dt == x * sec)%Q) by (rewrite Q; field; intros Z; rewrite Z in P; discriminate P).
    rewrite W. setoid_replace (x * sec - rounded x * sec)%Q with ((x - rounded x) * sec)%Q by ring.
    rewrite Qabs_Qmult, (Qabs_pos sec) by (apply Qlt_le_weak; exact P).
    setoid_replace (sec / 200)%Q with ((1 # 200) * sec)%Q by field.
    apply Qmult_le_compat_r; [apply rounded_near|apply Qlt_le_weak; exact P].
Qed.

Lemma stamped_accuracy : forall dt msg line v, stamped dt msg line v ->
  ((dt < 10)%Q -> (Qabs (dt - v) <= 1 # 200)%Q) /\ ((10 <= dt)%Q -> (Qabs (dt - v) <= (3 # 100) * dt)%Q).
Proof.
  intros dt msg line v (num & u & sec & neg & n & _ & _ & _ & _ & _ & S & B).
  destruct S as [[A [_ ->]] | [[A [A' [_ ->]]] | [[A [A' [_ ->]]] | [A [_ ->]]]]]; split; intros H.
  - exact B.
  - exfalso. apply (Qlt_not_le _ _ A H).
  - exfalso. apply (Qlt_not_le _ _ H A).
  - eapply Qle_trans; [exact B|]. unfold Qle, Qdiv, Qmult, Qinv in *. cbn [Qnum Qden] in *. lia.
  - exfalso. apply (Qlt_not_le _ _ H). eapply Qle_trans; [|exact A]. discriminate.
  - eapply Qle_trans; [exact B|]. unfold Qle, Qdiv, Qmult, Qinv in *. cbn [Qnum Qden] in *. lia.
  - exfalso. apply (Qlt_not_le _ _ H). eapply Qle_trans; [|exact A]. discriminate.
  - eapply Qle_trans; [exact B|]. unfold Qle, Qdiv, Qmult, Qinv in *. cbn [Qnum Qden] in *. lia.
Qed.

Lemma stamped_sign : forall dt msg line v, stamped dt msg line v -> (0 <= dt)%Q -> (0 <= v)%Q.
Proof.
  intros dt msg line v (num & u & sec & neg & n & _ & _ & P & V & N & S & _) D.
  destruct neg; [exfalso; apply (Qlt_not_le dt 0); [apply N; reflexivity|exact D]|]. rewrite V.
  assert (Z : (0 <= sec)%Q) by (destruct S as [[_ [_ ->]] | [[_ [_ [_ ->]]] | [[_ [_ [_ ->]]] | [_ [_ ->]]]]]; discriminate).
  apply Qmult_le_0_compat; [|exact Z]. rewrite Qmult_1_l. apply Qle_shift_div_l; [reflexivity|]. rewrite Qmult_0_l.
  unfold Qle. cbn [Qnum Qden inject_Z]. lia.
Qed.

Lemma below_real : forall x y : Q, if below x y then (Q2R x < Q2R y)%R else (Q2R y <= Q2R x)%R.
Proof. intros x y. destruct (below x y) eqn:E; [apply below_spec in E; apply Qlt_Rlt; exact E|apply below_false in E; apply Qle_Rle; exact E]. Qed.
Lemma Q2R_int : forall z, Q2R (inject_Z z) = IZR z.
Proof. intros z. unfold Q2R. cbn [Qnum Qden inject_Z]. field. Qed.
Lemma elapsed_real : forall dt, elapsed_time_str (Q2R dt) = (Q2R (fst (elapsed_time dt)), snd (elapsed_time dt)).
Proof.
  intros dt. unfold elapsed_time, elapsed_time_str.
  pose proof (below_real dt 10) as A. pose proof (below_real dt 600) as B. pose proof (below_real dt 36000) as C.
  change 10%Q with (inject_Z 10) in *. change 600%Q with (inject_Z 600) in *. change 36000%Q with (inject_Z 36000) in *. rewrite Q2R_int in *.
  destruct (below dt (inject_Z 10)); [|destruct (below dt (inject_Z 600)); [|destruct (below dt (inject_Z 36000))]]; cbn [fst snd].
  - destruct (Rlt_dec (Q2R dt) 10); [reflexivity|lra].
  - destruct (Rlt_dec (Q2R dt) 10); [lra|]. destruct (Rlt_dec (Q2R dt) 600); [|lra].
    rewrite Q2R_div by discriminate. change 60%Q with (inject_Z 60). rewrite Q2R_int. reflexivity.
  - destruct (Rlt_dec (Q2R dt) 10); [lra|]. destruct (Rlt_dec (Q2R dt) 600); [lra|]. destruct (Rlt_dec (Q2R dt) 36000); [|lra].
    rewrite Q2R_div by discriminate. change 3600%Q with (inject_Z 3600). rewrite Q2R_int. reflexivity.
  - destruct (Rlt_dec (Q2R dt) 10); [lra|]. destruct (Rlt_dec (Q2R dt) 600); [lra|]. destruct (Rlt_dec (Q2R dt) 36000); [lra|].
    rewrite Q2R_div by discriminate. change 86400%Q with (inject_Z 86400). rewrite Q2R_int. reflexivity.
Qed.

(** * Formatting *)
Lemma plain_app : forall a b, plain a -> plain b -> plain (a ++ b).
Proof. induction a as [|c a IH]; intros b A B; [exact B|]. destruct A as [A1 [A2 A3]]. cbn [append plain]. auto. Qed.

(** A character that is not a brace is copied. *)
Lemma format_char : forall shown n c r, c <> "{"%char -> c <> "}"%char ->
  str_format shown (S n) (String c r) = (t <- str_format shown n r ;; Ok (String c t)).
Proof.
  intros shown n c r A B. cbn [str_format].
  destruct c as [[] [] [] [] [] [] [] []]; try reflexivity; exfalso; (apply A; reflexivity) || (apply B; reflexivity).
Qed.

Lemma format_plain : forall shown s n, plain s -> str_format shown n s = Ok s.
Proof.
  induction s as [|c s IH]; intros [|n] P; try reflexivity.
  destruct P as [A [B P]]. rewrite format_char by assumption. rewrite (IH n P). reflexivity.
Qed.

Lemma format_prefix : forall shown a b n e, plain a -> str_format shown n b = Err e -> str_format shown (String.length a + n) (a ++ b) = Err e.
Proof.
  induction a as [|c a IH]; intros b n e P H; [exact H|].
  destruct P as [A [B P]]. cbn [append String.length Nat.add]. rewrite format_char by assumption. rewrite (IH b n e P H). reflexivity.
Qed.

Lemma split_brace : forall f r, bare f -> split_at (Ascii.eqb "}") (f ++ String "}" r) = (f, Some ("}"%char, r)).
Proof.
  induction f as [|c f IH]; intros r B; [reflexivity|]. destruct B as [N B]. cbn [append split_at].
  destruct (Ascii.eqb_spec "}" c) as [<- |_]; [exfalso; apply N; simpl; auto|]. rewrite (IH r B). reflexivity.
Qed.
Lemma split_name : forall f, bare f -> split_at ends_name f = (f, None).
Proof.
  induction f as [|c f IH]; intros B; [reflexivity|]. destruct B as [N B]. cbn [split_at].
  assert (E : ends_name c = false).
  { unfold ends_name. cbn [existsb]. repeat (match goal with |- context [Ascii.eqb c ?d] => destruct (Ascii.eqb_spec c d) as [-> |_]; [exfalso; apply N; simpl; tauto|] end). reflexivity. }
  rewrite E, (IH B). reflexivity.
Qed.

Lemma format_field : forall shown f r n, bare f -> f <> "elapsed"%string ->
  str_format shown (S n) (String "{" (f ++ String "}" r)) = Err (if numeral f then IndexError else KeyError).
Proof.
  intros shown f r n B NE.
  assert (F : field shown f = Err (if numeral f then IndexError else KeyError)).
  { unfold field. rewrite split_name by exact B. destruct (String.eqb_spec f "elapsed"); [contradiction|]. destruct (numeral f); reflexivity. }
  assert (G : str_format shown (S n) (String "{" (f ++ String "}" r)) =
    match split_at (Ascii.eqb "}") (f ++ String "}" r) with
      | (_, None) => Err ValueError
      | (f, Some (_, r')) => v <- field shown f ;; t <- str_format shown n r' ;; Ok (append v t)
      end).
  { destruct f as [|c f]; [reflexivity|]. destruct B as [N _]. cbn [append str_format].
    destruct c as [[] [] [] [] [] [] [] []]; try reflexivity. exfalso. apply N. simpl. auto. }
  rewrite G, split_brace by exact B. rewrite F. reflexivity.
Qed.

(** * The grammar of messages *)
Lemma sapp_assoc : forall a b c, ((a ++ b) ++ c = a ++ (b ++ c))%string.
Proof. induction a as [|x a IH]; intros b c; [reflexivity|]. cbn [append]. rewrite IH. reflexivity. Qed.
Lemma sapp_nil : forall a, (a ++ "" = a)%string.
Proof. induction a as [|x a IH]; [reflexivity|]. cbn [append]. rewrite IH. reflexivity. Qed.
Lemma format_brace : forall shown n r, (forall r', r <> String "{" r') -> str_format shown (S n) (String "{" r) =
    match split_at (Ascii.eqb "}") r with
    | (_, None) => Err ValueError
    | (f, Some (_, r')) => v <- field shown f ;; t <- str_format shown n r' ;; Ok (append v t)
    end.
Proof.
  intros shown n r H. cbn [str_format]. destruct r as [|c r]; [reflexivity|].
  destruct c as [[] [] [] [] [] [] [] []]; try reflexivity. exfalso. exact (H r eq_refl).
Qed.
Lemma format_single : forall shown n r, (forall r', r <> String "}" r') -> str_format shown (S n) (String "}" r) = Err ValueError.
Proof.
  intros shown n r H. cbn [str_format]. destruct r as [|c r]; [reflexivity|].
  destruct c as [[] [] [] [] [] [] [] []]; try reflexivity. exfalso. exact (H r eq_refl).
Qed.
Lemma split_plain : forall f r, plain f -> split_at (Ascii.eqb "}") (f ++ String "}" r) = (f, Some ("}"%char, r)).
Proof.
  induction f as [|c f IH]; intros r P; [reflexivity|]. destruct P as [_ [N P]]. cbn [append split_at].
  destruct (Ascii.eqb_spec "}" c) as [<- |_]; [exfalso; apply N; reflexivity|]. rewrite (IH r P). reflexivity.
Qed.
Lemma split_none : forall r, plain r -> snd (split_at (Ascii.eqb "}") r) = None.
Proof.
  induction r as [|c r IH]; intros P; [reflexivity|]. destruct P as [_ [N P]]. cbn [split_at].
  destruct (Ascii.eqb_spec "}" c) as [<- |_]; [exfalso; apply N; reflexivity|]. specialize (IH P). destruct (split_at (Ascii.eqb "}") r). exact IH.
Qed.
Lemma bare_plain : forall s, bare s -> plain s.
Proof.
  induction s as [|c s IH]; intros B; [exact I|]. destruct B as [N B]. split; [intros ->; apply N; simpl; auto|]. split; [intros ->; apply N; simpl; auto|]. exact (IH B).
Qed.
Lemma ends_name_in : forall c, ends_name c = true <-> In c ["."; "["; ":"; "!"]%char.
Proof.
  intros c. unfold ends_name. rewrite existsb_exists. split.
  - intros [x [Hx E]]. apply Ascii.eqb_eq in E. subst x. exact Hx.
  - intros H. exists c. split; [exact H|apply Ascii.eqb_refl].
Qed.
Lemma split_rest : forall name rest, bare name -> (rest = ""%string \/ exists c r, rest = String c r /\ In c ["."; "["; ":"; "!"]%char) ->
  exists o, split_at ends_name (name ++ rest) = (name, o) /\ match o with None => EmptyString | Some (c, r) => String c r end = rest.
Proof.
  induction name as [|x name IH]; intros rest B H.
  - destruct H as [-> | [c [r [-> H]]]].
    + exists None. split; reflexivity.
    + cbn [append split_at]. apply ends_name_in in H. rewrite H. exists (Some (c, r)). split; reflexivity.
  - destruct B as [N B]. destruct (IH rest B H) as [o [E1 E2]]. cbn [append split_at].
    assert (F : ends_name x = false).
    { destruct (ends_name x) eqn:E; [|reflexivity]. apply ends_name_in in E. exfalso. apply N. right. right. exact E. }
    rewrite F, E1. exists o. split; [reflexivity|exact E2].
Qed.
Lemma is_digit_in : forall c, is_digit c = true <-> In c decimal_digits.
Proof.
  intros c. split.
  - destruct c as [[] [] [] [] [] [] [] []]; intros H; try (vm_compute in H; discriminate H); unfold decimal_digits; simpl; tauto.
  - intros H. unfold decimal_digits in H. simpl in H. repeat (destruct H as [<- |H]; [reflexivity|]). contradiction.
Qed.
Lemma numeral_true : forall s, (forall c, In c (list_ascii_of_string s) -> In c decimal_digits) -> numeral s = true.
Proof.
  induction s as [|x s IH]; intros H; [reflexivity|]. cbn [numeral]. rewrite (proj2 (is_digit_in x)) by (apply H; left; reflexivity). apply IH. intros c Hc. apply H. right. exact Hc.
Qed.
Lemma numeral_false : forall s c, In c (list_ascii_of_string s) -> ~ In c decimal_digits -> numeral s = false.
Proof.
  induction s as [|x s IH]; intros c H N; [destruct H|]. cbn [numeral]. destruct H as [-> |H].
  - destruct (is_digit c) eqn:E; [exfalso; apply N; apply is_digit_in; exact E|reflexivity].
  - rewrite (IH c H N). apply andb_false_r.
Qed.
Lemma field_gives : forall shown name rest r, proper (Named name rest) -> gives shown (Named name rest) r -> field shown (name ++ rest) = r.
Proof.
  intros shown name rest r [B [_ H]] G. destruct (split_rest name rest B H) as [o [E1 E2]]. unfold field. rewrite E1, E2.
  inversion G as [| | |rest' |name' rest' HD|name' rest' c HN HI HO]; subst.
  - rewrite String.eqb_refl. reflexivity.
  - destruct (String.eqb_spec name "elapsed") as [-> |_].
    + exfalso. assert (X : In "e"%char decimal_digits) by (apply HD; left; reflexivity). apply is_digit_in in X. discriminate X.
    + rewrite numeral_true by assumption. reflexivity.
  - destruct (String.eqb_spec name "elapsed"); [contradiction|]. rewrite (numeral_false name c) by assumption. reflexivity.
Qed.
(** One part. *)
Lemma format_part : forall shown p v n t, proper p -> gives shown p v ->
  str_format shown (S n) (written p ++ t) = (a <- v ;; x <- str_format shown n t ;; Ok (append a x)).
Proof.
  intros shown p v n t P G. destruct p as [c| | |name rest].
  - inversion G; subst. destruct P as [P1 P2]. cbn [written append]. rewrite format_char by assumption. reflexivity.
  - inversion G; subst. reflexivity.
  - inversion G; subst. reflexivity.
  - pose proof (field_gives shown name rest v P G) as F. destruct P as [B [Q H]]. cbn [written append].
    replace (append (append name (append rest "}")) t) with (append (append name rest) (String "}" t)) by (rewrite !sapp_assoc; reflexivity).
    rewrite format_brace.
    + rewrite split_plain by (apply plain_app; [apply bare_plain; exact B|exact Q]). rewrite F. reflexivity.
    + intros r' E. destruct name as [|c name].
      * destruct H as [-> | [c [r [-> H]]]]; [discriminate E|]. cbn [append] in E. injection E as Ec _. subst c. destruct Q as [Q _]. contradiction.
      * cbn [append] in E. injection E as Ec _. subst c. destruct B as [B _]. apply B. left. reflexivity.
Qed.
Lemma written_length : forall p, (1 <= String.length (written p))%nat.
Proof. destruct p; cbn; lia. Qed.
(** All parts, with a text behind them. *)
Lemma format_parts : forall shown ps r, formats shown ps r -> Forall proper ps -> forall n t, (String.length (text ps ++ t) < n)%nat ->
  exists n', (String.length t < n')%nat /\ str_format shown n (text ps ++ t) = (a <- r ;; x <- str_format shown n' t ;; Ok (append a x)).
Proof.
  intros shown ps r F. induction F as [|p ps e G|p ps a e G F IH|p ps a b G F IH]; intros P n t L.
  - exists n. split; [exact L|]. cbn [text append bind]. destruct (str_format shown n t); reflexivity.
  - inversion P; subst. cbn [text] in *. rewrite sapp_assoc in *. rewrite Names_proofs.length_app in L. pose proof (written_length p).
    destruct n as [|n]; [lia|]. exists (S (String.length t)). split; [lia|]. rewrite (format_part shown p _ n _ H1 G). reflexivity.
  - inversion P; subst. cbn [text] in *. rewrite sapp_assoc in *. rewrite Names_proofs.length_app in L. pose proof (written_length p).
    destruct n as [|n]; [lia|]. destruct (IH H2 n t) as [n' [L' E]]; [lia|]. exists n'. split; [exact L'|]. rewrite (format_part shown p _ n _ H1 G). rewrite E. reflexivity.
  - inversion P; subst. cbn [text] in *. rewrite sapp_assoc in *. rewrite Names_proofs.length_app in L. pose proof (written_length p).
    destruct n as [|n]; [lia|]. destruct (IH H2 n t) as [n' [L' E]]; [lia|]. exists n'. split; [exact L'|]. rewrite (format_part shown p _ n _ H1 G). rewrite E. cbn [bind].
    destruct (str_format shown n' t); [cbn [bind]; rewrite sapp_assoc; reflexivity|reflexivity].
Qed.
