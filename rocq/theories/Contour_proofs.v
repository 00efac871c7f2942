(** Sums of a complex function of a frequency along a square, and Riemann sums of a
    real one: a function of [x + i y] whose difference quotients in the two directions
    agree, and which falls off as [1 / |z|^2], has a small sum along the real axis.
    Nothing here is about the code; [Sum_proofs] applies it to the Green's function. *)
From Coq Require Import Reals Ratan RiemannInt Lra Lia.
From Verif Require Import Base Cplx Physics_proofs Moments_proofs Walk_proofs Holo_proofs.
Open Scope R_scope.

Fixpoint csum (u : nat -> C) (n : nat) : C :=
  match n with O => C0 | S j => Cadd (csum u j) (u j) end.

Fixpoint rsum (u : nat -> R) (n : nat) : R :=
  match n with O => 0 | S j => rsum u j + u j end.

Lemma csum_abs : forall u n M, (forall j, (j < n)%nat -> Cabs (u j) <= M) -> Cabs (csum u n) <= INR n * M.
Proof.
  induction n as [|n IH]; intros M H.
  - cbn [csum INR]. rewrite Cabs_C0. lra.
  - cbn [csum]. rewrite S_INR. pose proof (Cabs_triangle (csum u n) (u n)).
    assert (Cabs (csum u n) <= INR n * M) by (apply IH; intros; apply H; lia).
    pose proof (H n ltac:(lia)). lra.
Qed.

Lemma csum_ext : forall u v n, (forall j, (j < n)%nat -> u j = v j) -> csum u n = csum v n.
Proof.
  induction n as [|n IH]; intros H; [reflexivity|]. cbn [csum]. rewrite IH by (intros; apply H; lia).
  rewrite H by lia. reflexivity.
Qed.

Lemma csum_sub : forall u v n, csum (fun j => Csub (u j) (v j)) n = Csub (csum u n) (csum v n).
Proof. induction n as [|n IH]; cbn [csum]; [ring|]. rewrite IH. ring. Qed.

Lemma csum_mul : forall c u n, csum (fun j => Cmul c (u j)) n = Cmul c (csum u n).
Proof. induction n as [|n IH]; cbn [csum]; [ring|]. rewrite IH. ring. Qed.

Lemma csum_tele : forall u n, csum (fun j => Csub (u (S j)) (u j)) n = Csub (u n) (u O).
Proof. induction n as [|n IH]; cbn [csum]; [ring|]. rewrite IH. ring. Qed.

Lemma csum_im : forall u n, Im (csum u n) = rsum (fun j => Im (u j)) n.
Proof. induction n as [|n IH]; cbn [csum rsum]; [reflexivity|]. rewrite <- IH. reflexivity. Qed.

Lemma rsum_ext : forall u v n, (forall j, (j < n)%nat -> u j = v j) -> rsum u n = rsum v n.
Proof.
  induction n as [|n IH]; intros H; [reflexivity|]. cbn [rsum]. rewrite IH by (intros; apply H; lia).
  rewrite H by lia. reflexivity.
Qed.

Lemma rsum_scal : forall c u n, rsum (fun j => c * u j) n = c * rsum u n.
Proof. induction n as [|n IH]; cbn [rsum]; [ring|]. rewrite IH. ring. Qed.

Lemma rsum_sub : forall u v n, rsum (fun j => u j - v j) n = rsum u n - rsum v n.
Proof. induction n as [|n IH]; cbn [rsum]; [ring|]. rewrite IH. ring. Qed.

(** ** Along a square *)

Section Square.
  Variables (f : R -> R -> C) (y0 Q K : R).
  Hypothesis Hy : 0 < y0.
  Hypothesis cell : forall x y h, y0 <= y -> 0 < h ->
    Cabs (Csub (Cmul Ci (Csub (f (x + h) y) (f x y))) (Csub (f x (y + h)) (f x y))) <= Q * (h * h).
  Hypothesis decay : forall x y, y0 <= y -> Cabs (f x y) * (x * x + y * y) <= K.

  Let row (r h : R) (n l : nat) : C := csum (fun j => f (- r + INR j * h) (y0 + INR l * h)) n.

  Lemma one_row : forall r h n l, 0 < h ->
    Cabs (Cadd (Csub (row r h n l) (row r h n (S l)))
               (Cmul Ci (Csub (f (- r + INR n * h) (y0 + INR l * h)) (f (- r) (y0 + INR l * h)))))
      <= INR n * (Q * (h * h)).
  Proof.
    intros r h n l Hh.
    replace (Cadd _ _) with
      (csum (fun j => Csub (Cmul Ci (Csub (f (- r + INR j * h + h) (y0 + INR l * h)) (f (- r + INR j * h) (y0 + INR l * h))))
                           (Csub (f (- r + INR j * h) (y0 + INR l * h + h)) (f (- r + INR j * h) (y0 + INR l * h)))) n).
    - apply csum_abs. intros j _. apply cell; [|exact Hh]. pose proof (pos_INR l). nra.
    - rewrite csum_sub, csum_mul.
      rewrite (csum_ext (fun j => Csub (f (- r + INR j * h + h) (y0 + INR l * h)) (f (- r + INR j * h) (y0 + INR l * h)))
                        (fun j => Csub (f (- r + INR (S j) * h) (y0 + INR l * h)) (f (- r + INR j * h) (y0 + INR l * h))))
        by (intros j _; rewrite S_INR; do 2 f_equal; ring).
      rewrite (csum_tele (fun j => f (- r + INR j * h) (y0 + INR l * h))). cbv beta.
      replace (- r + INR 0 * h) with (- r) by (cbn [INR]; ring).
      rewrite csum_sub. unfold row.
      replace (csum (fun j => f (- r + INR j * h) (y0 + INR (S l) * h)) n)
        with (csum (fun j => f (- r + INR j * h) (y0 + INR l * h + h)) n)
        by (apply csum_ext; intros j _; f_equal; rewrite S_INR; ring).
      set (a := csum _ n). set (b := csum _ n). set (p := f _ _). set (q := f _ _). ring.
  Qed.

  Let sides (r h : R) (n l : nat) : C :=
    csum (fun i => Csub (f (- r + INR n * h) (y0 + INR i * h)) (f (- r) (y0 + INR i * h))) l.

  Lemma rows : forall r h n l, 0 < h ->
    Cabs (Cadd (Csub (row r h n 0) (row r h n l)) (Cmul Ci (sides r h n l))) <= INR l * (INR n * (Q * (h * h))).
  Proof.
    intros r h n l Hh. induction l as [|l IH].
    - unfold sides. cbn [csum INR]. replace (Cadd _ _) with C0 by ring. rewrite Cabs_C0. lra.
    - unfold sides in *. cbn [csum]. rewrite S_INR.
      pose proof (one_row r h n l Hh) as H1.
      match type of IH with Cabs ?u <= _ => match type of H1 with Cabs ?v <= _ =>
        pose proof (Cabs_triangle u v) as H2; set (U := u) in *; set (V := v) in * end end.
      replace (Cadd _ _) with (Cadd U V) by (unfold U, V; ring). lra.
  Qed.

  Lemma far : forall x y s, y0 <= y -> 0 < s -> s <= x * x + y * y -> Cabs (f x y) <= K / s.
  Proof.
    intros x y s Hy1 Hs Hf. pose proof (decay x y Hy1) as H. pose proof (Cabs_ge0 (f x y)).
    apply Rmult_le_reg_r with s; [exact Hs|]. unfold Rdiv. rewrite Rmult_assoc, Rinv_l by lra. nra.
  Qed.

  Theorem square : forall r n, 0 < r -> (0 < n)%nat ->
    let h := 2 * r / INR n in
    h * Cabs (csum (fun j => f (- r + INR j * h) y0) n) <= 9 * K / (2 * r) + Q * (4 * (r * r)) * h.
  Proof.
    intros r n Hr Hn h.
    assert (Hn' : 0 < INR n) by (apply lt_0_INR; exact Hn).
    assert (Hh : 0 < h) by (unfold h; apply Rdiv_lt_0_compat; lra).
    assert (Hnh : INR n * h = 2 * r) by (unfold h; field; lra).
    pose proof (rows r h n n Hh) as HR.
    assert (Htop : Cabs (row r h n n) <= INR n * (K / (4 * (r * r)))).
    { apply csum_abs. intros j _. rewrite Hnh. apply far; [lra|nra|].
      set (x := - r + INR j * h). pose proof (Rle_0_sqr x) as Hx. unfold Rsqr in Hx. nra. }
    assert (Hs : Cabs (sides r h n n) <= INR n * (2 * (K / (r * r)))).
    { unfold sides. apply csum_abs. intros j _. rewrite Hnh. pose proof (pos_INR j).
      set (y := y0 + INR j * h). assert (y0 <= y) by (unfold y; nra).
      assert (Cabs (f (- r + 2 * r) y) <= K / (r * r)) by (apply far; nra).
      assert (Cabs (f (- r) y) <= K / (r * r)) by (apply far; nra).
      pose proof (Cabs_sub (f (- r + 2 * r) y) (f (- r) y)). lra. }
    replace (csum _ n) with (row r h n 0) by (unfold row; apply csum_ext; intros j _; f_equal; cbn [INR]; ring).
    set (b := row r h n 0) in *. set (t := row r h n n) in *. set (s := sides r h n n) in *.
    assert (Hb : Cabs b <= INR n * (INR n * (Q * (h * h))) + Cabs t + Cabs s).
    { replace b with (Cadd (Cadd (Csub b t) (Cmul Ci s)) (Csub t (Cmul Ci s))) by ring.
      pose proof (Cabs_triangle (Cadd (Csub b t) (Cmul Ci s)) (Csub t (Cmul Ci s))).
      pose proof (Cabs_sub t (Cmul Ci s)) as H2. rewrite Cabs_mul in H2.
      replace (Cabs Ci) with 1 in H2 by (symmetry; unfold Ci; apply Cabs_iy; lra). lra. }
    apply Rle_trans with (h * (INR n * (INR n * (Q * (h * h))) + INR n * (K / (4 * (r * r))) + INR n * (2 * (K / (r * r))))).
    - apply Rmult_le_compat_l; lra.
    - replace (h * _) with ((INR n * h) * (INR n * h) * Q * h + (INR n * h) * (K / (4 * (r * r)) + 2 * (K / (r * r)))) by ring.
      rewrite Hnh. right. field. lra.
  Qed.
End Square.

(** ** [1 / z] *)

Definition inv_at (x y : R) : C := Cinv (x, y).

Lemma z_nonzero : forall x y, 0 < y -> (x, y) <> C0.
Proof. intros x y H E. apply (f_equal snd) in E. cbn in E. lra. Qed.

Lemma z_abs : forall x y, 0 < y -> y <= Cabs (x, y).
Proof. intros x y H. pose proof (Im_abs_le (x, y)) as H1. cbn [Im snd] in H1. rewrite Rabs_pos_eq in H1 by lra. exact H1. Qed.

Lemma z_sq : forall x y, Cabs (x, y) * Cabs (x, y) = x * x + y * y.
Proof. intros. rewrite Cabs_sq. reflexivity. Qed.

Lemma Cinv_diff : forall u v, u <> C0 -> v <> C0 -> Csub (Cinv v) (Cinv u) = Cmul (Csub u v) (Cmul (Cinv u) (Cinv v)).
Proof.
  intros u v Hu Hv. pose proof (Cinv_l u Hu) as E1. pose proof (Cinv_l v Hv) as E2.
  set (a := Cinv u) in *. set (b := Cinv v) in *.
  replace (Cmul (Csub u v) (Cmul a b)) with (Csub (Cmul (Cmul a u) b) (Cmul a (Cmul b v))) by ring.
  rewrite E1, E2. ring.
Qed.

Lemma inv_abs : forall x y y0, 0 < y0 -> y0 <= y -> Cabs (inv_at x y) <= / y0.
Proof.
  intros x y y0 H0 H. unfold inv_at. rewrite Cabs_Cinv by (apply z_nonzero; lra).
  pose proof (z_abs x y ltac:(lra)). apply Rinv_le_contravar; lra.
Qed.

Lemma inv_cell : forall y0, 0 < y0 -> forall x y h, y0 <= y -> 0 < h ->
  Cabs (Csub (Cmul Ci (Csub (inv_at (x + h) y) (inv_at x y))) (Csub (inv_at x (y + h)) (inv_at x y))) <= 2 / (y0 * y0 * y0) * (h * h).
Proof.
  intros y0 H0 x y h Hy Hh. unfold inv_at.
  assert (N1 : (x, y) <> C0) by (apply z_nonzero; lra).
  assert (N2 : (x + h, y) <> C0) by (apply z_nonzero; lra).
  assert (N3 : (x, y + h) <> C0) by (apply z_nonzero; lra).
  rewrite (Cinv_diff (x, y) (x + h, y) N1 N2), (Cinv_diff (x, y) (x, y + h) N1 N3).
  pose proof (inv_abs x y y0 H0 Hy) as B1.
  pose proof (inv_abs (x + h) y y0 H0 Hy) as B2.
  pose proof (inv_abs x (y + h) y0 H0 ltac:(lra)) as B3. unfold inv_at in *.
  replace (Csub (x, y) (x + h, y)) with (RtoC (- h)) by (unfold Csub, RtoC; cbn; f_equal; ring).
  replace (Csub (x, y) (x, y + h)) with (Cmul Ci (RtoC (- h))) by (unfold Csub, RtoC, Ci, Cmul; cbn; f_equal; ring).
  replace (Csub _ _) with (Cmul (Cmul Ci (RtoC (- h))) (Cmul (Cinv (x, y)) (Csub (Cinv (x + h, y)) (Cinv (x, y + h))))) by ring.
  rewrite (Cinv_diff (x, y + h) (x + h, y) N3 N2).
  rewrite !Cabs_mul. replace (Cabs Ci) with 1 by (symmetry; unfold Ci; apply Cabs_iy; lra).
  rewrite Cabs_RtoC, Rabs_Ropp, (Rabs_pos_eq h) by lra.
  assert (Hd : Cabs (Csub (x, y + h) (x + h, y)) <= 2 * h).
  { replace (Csub (x, y + h) (x + h, y)) with (Csub (Cmul Ci (RtoC h)) (RtoC h)) by (unfold Csub, RtoC, Ci, Cmul; cbn; f_equal; ring).
    pose proof (Cabs_sub (Cmul Ci (RtoC h)) (RtoC h)) as H. rewrite Cabs_mul, Cabs_RtoC, (Rabs_pos_eq h) in H by lra.
    replace (Cabs Ci) with 1 in H by (symmetry; unfold Ci; apply Cabs_iy; lra). lra. }
  pose proof (Cabs_ge0 (Cinv (x, y))) as P1. pose proof (Cabs_ge0 (Cinv (x + h, y))) as P2.
  pose proof (Cabs_ge0 (Cinv (x, y + h))) as P3. pose proof (Cabs_ge0 (Csub (x, y + h) (x + h, y))) as P4.
  replace (2 / (y0 * y0 * y0) * (h * h)) with (1 * h * (/ y0 * (2 * h * (/ y0 * / y0)))) by (field; lra).
  apply Rmult_le_compat_l; [lra|].
  apply Rmult_le_compat; [exact P1| |exact B1|].
  - apply Rmult_le_pos; [exact P4|]. apply Rmult_le_pos; assumption.
  - apply Rmult_le_compat; [exact P4| |exact Hd|].
    + apply Rmult_le_pos; assumption.
    + apply Rmult_le_compat; assumption.
Qed.

Lemma inv_lip : forall y, 0 < y -> forall x x', Rabs (Im (inv_at x' y) - Im (inv_at x y)) <= / (y * y) * Rabs (x' - x).
Proof.
  intros y Hy x x'.
  assert (N1 : (x, y) <> C0) by (apply z_nonzero; lra).
  assert (N2 : (x', y) <> C0) by (apply z_nonzero; lra).
  apply Rle_trans with (Cabs (Csub (inv_at x' y) (inv_at x y))).
  - apply (Im_abs_le (Csub (inv_at x' y) (inv_at x y))).
  - unfold inv_at. rewrite (Cinv_diff (x, y) (x', y) N1 N2), !Cabs_mul.
    replace (Csub (x, y) (x', y)) with (RtoC (- (x' - x))) by (unfold Csub, RtoC; cbn; f_equal; ring).
    rewrite Cabs_RtoC, Rabs_Ropp.
    pose proof (inv_abs x y y Hy ltac:(lra)) as B1. pose proof (inv_abs x' y y Hy ltac:(lra)) as B2. unfold inv_at in *.
    pose proof (Cabs_ge0 (Cinv (x, y))). pose proof (Cabs_ge0 (Cinv (x', y))).
    rewrite (Rmult_comm (/ (y * y))), Rinv_mult.
    apply Rmult_le_compat_l; [apply Rabs_pos|]. apply Rmult_le_compat; assumption.
Qed.

Lemma inv_im : forall x y, - Im (inv_at x y) = y / (x * x + y * y).
Proof. intros. unfold inv_at, Cinv, Cnorm2. cbn. unfold Rdiv. ring. Qed.

(** ** Riemann sums *)

Definition lipschitz (u : R -> R) (M : R) : Prop := forall x x', Rabs (u x' - u x) <= M * Rabs (x' - x).

Lemma lip_cont : forall u M, 0 <= M -> lipschitz u M -> forall x, continuity_pt u x.
Proof.
  intros u M HM HL x e He. exists (e / (M + 1)). split.
  - apply Rdiv_lt_0_compat; lra.
  - intros y [_ Hy]. cbn in *. unfold R_dist in *. pose proof (HL x y) as H.
    apply Rle_lt_trans with (M * Rabs (y - x)); [exact H|].
    apply Rle_lt_trans with (M * (e / (M + 1))).
    + apply Rmult_le_compat_l; lra.
    + apply Rlt_le_trans with ((M + 1) * (e / (M + 1))); [|right; field; lra].
      apply Rmult_lt_compat_r; [apply Rdiv_lt_0_compat; lra|lra].
Qed.

Lemma lip_int : forall u M, 0 <= M -> lipschitz u M -> forall a b, Riemann_integrable u a b.
Proof.
  intros u M HM HL a b. destruct (Rle_dec a b) as [H|H].
  - apply continuity_implies_RiemannInt; [exact H|]. intros x _. apply (lip_cont u M); assumption.
  - apply RiemannInt_P1. apply continuity_implies_RiemannInt; [lra|]. intros x _. apply (lip_cont u M); assumption.
Qed.

Lemma int_cell : forall u M, 0 <= M -> lipschitz u M -> forall a h (pr : Riemann_integrable u a (a + h)), 0 < h ->
  Rabs (RiemannInt pr - h * u a) <= M * (h * h).
Proof.
  intros u M HM HL a h pr Hh.
  pose proof (@RiemannInt_P19 u (fct_cte (u a + M * h)) a (a + h) pr (RiemannInt_P14 a (a + h) (u a + M * h))) as H1.
  pose proof (@RiemannInt_P19 (fct_cte (u a - M * h)) u a (a + h) (RiemannInt_P14 a (a + h) (u a - M * h)) pr) as H2.
  rewrite RiemannInt_P15 in H1, H2.
  assert (Hx : forall x, a < x < a + h -> Rabs (u x - u a) <= M * h).
  { intros x [H3 H4]. pose proof (HL a x) as H. rewrite (Rabs_pos_eq (x - a)) in H by lra. nra. }
  assert (E1 : RiemannInt pr <= (u a + M * h) * (a + h - a)).
  { apply H1; [lra|]. intros x Hr. unfold fct_cte. pose proof (Hx x Hr) as H.
    pose proof (Rle_abs (u x - u a)). lra. }
  assert (E2 : (u a - M * h) * (a + h - a) <= RiemannInt pr).
  { apply H2; [lra|]. intros x Hr. unfold fct_cte. pose proof (Hx x Hr) as H.
    pose proof (Rle_abs (- (u x - u a))) as H3. rewrite Rabs_Ropp in H3. lra. }
  apply Rabs_le. lra.
Qed.

Theorem riemann_sum : forall u M, 0 <= M -> lipschitz u M -> forall a h n (pr : Riemann_integrable u a (a + INR n * h)), 0 < h ->
  Rabs (RiemannInt pr - h * rsum (fun j => u (a + INR j * h)) n) <= INR n * (M * (h * h)).
Proof.
  intros u M HM HL a h n. induction n as [|n IH]; intros pr Hh.
  - cbn [rsum]. assert (E : a + INR 0 * h = a) by (cbn [INR]; ring).
    revert pr. rewrite E. intros pr. rewrite RiemannInt_P9. cbn [INR]. replace (0 - h * 0) with 0 by ring. rewrite Rabs_R0. lra.
  - cbn [rsum]. revert pr. replace (a + INR (S n) * h) with (a + INR n * h + h) by (rewrite S_INR; ring). intros pr.
    set (p1 := lip_int u M HM HL a (a + INR n * h)).
    set (p2 := lip_int u M HM HL (a + INR n * h) (a + INR n * h + h)).
    rewrite <- (@RiemannInt_P26 u a (a + INR n * h) (a + INR n * h + h) p1 p2 pr).
    pose proof (IH p1 Hh) as H1. pose proof (int_cell u M HM HL (a + INR n * h) h p2 Hh) as H2.
    rewrite S_INR.
    replace (RiemannInt p1 + RiemannInt p2 - h * (rsum (fun j => u (a + INR j * h)) n + u (a + INR n * h)))
      with ((RiemannInt p1 - h * rsum (fun j => u (a + INR j * h)) n) + (RiemannInt p2 - h * u (a + INR n * h))) by ring.
    eapply Rle_trans; [apply Rabs_triang|]. lra.
Qed.

(** The same for a function with a known antiderivative. *)
Theorem antiderivative_sum : forall F u M, 0 <= M -> lipschitz u M -> (forall x, derivable_pt_lim F x (u x)) ->
  forall a h n, 0 < h -> Rabs (F (a + INR n * h) - F a - h * rsum (fun j => u (a + INR j * h)) n) <= INR n * (M * (h * h)).
Proof.
  intros F u M HM HL HF a h n Hh. induction n as [|n IH].
  - cbn [rsum INR]. replace (a + 0 * h) with a by ring. replace (F a - F a - h * 0) with 0 by ring. rewrite Rabs_R0. lra.
  - cbn [rsum]. rewrite S_INR.
    destruct (MVT_cor2 F u (a + INR n * h) (a + INR n * h + h) ltac:(lra) (fun c _ => HF c)) as (c & E & Hc1 & Hc2).
    replace (a + (INR n + 1) * h) with (a + INR n * h + h) by ring.
    replace (F (a + INR n * h + h) - F a - h * (rsum (fun j => u (a + INR j * h)) n + u (a + INR n * h)))
      with ((F (a + INR n * h) - F a - h * rsum (fun j => u (a + INR j * h)) n) + (u c - u (a + INR n * h)) * h)
      by (replace (F (a + INR n * h + h)) with (F (a + INR n * h) + u c * h) by lra; ring).
    eapply Rle_trans; [apply Rabs_triang|].
    rewrite Rabs_mult, (Rabs_pos_eq h) by lra.
    pose proof (HL (a + INR n * h) c) as H. rewrite (Rabs_pos_eq (c - _)) in H by lra.
    assert (M * (c - (a + INR n * h)) <= M * h) by (apply Rmult_le_compat_l; lra). nra.
Qed.

(** ** The Lorentzian *)

Lemma lorentz_antider : forall y, 0 < y -> forall x, derivable_pt_lim (fun x => atan (x / y)) x (- Im (inv_at x y)).
Proof.
  intros y Hy x.
  assert (H : derivable_pt_lim (comp atan (fun x => x / y)) x (/ (1 + (x / y) ^ 2) * (1 / y))).
  { apply derivable_pt_lim_comp; [|apply derivable_pt_lim_atan].
    assert (E : derivable_pt_lim (mult_real_fct (/ y) id) x (/ y * 1)) by (apply derivable_pt_lim_scal, derivable_pt_lim_id).
    intros e He. destruct (E e He) as [d Hd]. exists d. intros h Hn Hh. pose proof (Hd h Hn Hh) as H.
    unfold mult_real_fct, id in H. replace ((x + h) / y - x / y) with (/ y * (x + h) - / y * x) by (field; lra).
    replace (1 / y) with (/ y * 1) by (field; lra). exact H. }
  rewrite inv_im. replace (y / (x * x + y * y)) with (/ (1 + (x / y) ^ 2) * (1 / y)); [exact H|].
  assert (0 < x * x + y * y) by nra. field. repeat split; nra.
Qed.

Lemma atan_le : forall x, 0 <= x -> atan x <= x.
Proof.
  intros x [H | <-]; [|rewrite atan_0; lra].
  destruct (MVT_cor2 atan (fun c => / (1 + c ^ 2)) 0 x H (fun c _ => derivable_pt_lim_atan c)) as (c & E & Hc1 & Hc2).
  rewrite atan_0 in E. assert (1 <= 1 + c ^ 2) by nra.
  assert (/ (1 + c ^ 2) <= 1) by (rewrite <- Rinv_1; apply Rinv_le_contravar; lra). nra.
Qed.

Lemma atan_tail : forall x, 0 < x -> PI / 2 - / x <= atan x < PI / 2.
Proof.
  intros x H. split; [|apply atan_bound].
  pose proof (atan_inv x H) as E. assert (0 < / x) by (apply Rinv_0_lt_compat; exact H).
  pose proof (atan_le (/ x) ltac:(lra)). lra.
Qed.
