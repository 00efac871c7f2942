(** Integrals of functions that decay quadratically outside of an interval
    (C75). *)
From Coq Require Import Reals Lra Lia RiemannInt Ranalysis.
From Verif Require Import Contour_proofs Sum_proofs.
Open Scope R_scope.

Lemma sum_le_anti : forall u M Q q a h n, 0 <= M -> lipschitz u M -> 0 < h -> (forall c, a <= c <= a + INR n * h -> derivable_pt_lim Q c (q c)) ->
  (forall c, a <= c <= a + INR n * h -> u c <= q c) -> h * rsum (fun j => u (a + INR j * h)) n <= Q (a + INR n * h) - Q a + INR n * (M * (h * h)).
Proof.
  intros u M Q q a h n HM HL Hh. induction n as [|n IH]; intros HQ Hq.
  - cbn [rsum INR]. replace (a + 0 * h) with a by ring. lra.
  - rewrite S_INR in HQ, Hq. assert (P : 0 <= INR n * h) by (apply Rmult_le_pos; [apply pos_INR|lra]).
    specialize (IH (fun c Hc => HQ c ltac:(lra)) (fun c Hc => Hq c ltac:(lra))). cbn [rsum]. rewrite S_INR. set (x := a + INR n * h) in *.
    replace (a + (INR n + 1) * h) with (x + h) in * by (unfold x; ring).
    destruct (MVT_cor2 Q q x (x + h) ltac:(lra) (fun c Hc => HQ c ltac:(unfold x in *; lra))) as (c & E & C1 & C2).
    pose proof (Hq c ltac:(unfold x in *; lra)) as U. pose proof (HL c x) as L. rewrite (Rabs_left1 (x - c)) in L by lra. pose proof (Rle_abs (u x - u c)) as A.
    assert (B : u x <= q c + M * h).
    { assert (M * - (x - c) <= M * h) by (apply Rmult_le_compat_l; lra). lra. }
    apply (Rmult_le_compat_l h) in B; [|lra]. lra.
Qed.
Lemma int_le_anti : forall u M Q q a b, 0 <= M -> lipschitz u M -> a < b -> (forall c, a <= c <= b -> derivable_pt_lim Q c (q c)) ->
  (forall c, a <= c <= b -> u c <= q c) -> forall pr : Riemann_integrable u a b, RiemannInt pr <= Q b - Q a.
Proof.
  intros u M Q q a b HM HL Hab HQ Hq pr. apply (le_limit _ (Q b - Q a) (2 * M * ((b - a) * (b - a)))).
  { apply Rmult_le_pos; [lra|]. apply Rmult_le_pos; lra. }
  intros n Hn. assert (Hn' : 0 < INR n) by (apply lt_0_INR; exact Hn). set (h := (b - a) / INR n). assert (Hh : 0 < h) by (apply Rdiv_lt_0_compat; lra).
  assert (Eb : a + INR n * h = b) by (unfold h; field; lra).
  assert (X : forall e (pe : Riemann_integrable u a e), e = a + INR n * h -> Rabs (RiemannInt pe - h * rsum (fun j => u (a + INR j * h)) n) <= INR n * (M * (h * h))) by (intros e pe ->; apply riemann_sum; assumption).
  specialize (X b pr (eq_sym Eb)). pose proof (Rle_abs (RiemannInt pr - h * rsum (fun j => u (a + INR j * h)) n)) as A.
  pose proof (sum_le_anti u M Q q a h n HM HL Hh) as S. rewrite Eb in S. specialize (S HQ Hq).
  replace (2 * M * ((b - a) * (b - a)) / INR n) with (2 * (INR n * (M * (h * h)))); [lra|]. unfold h. field. lra.
Qed.

Lemma anti_right : forall K p x, x <> p -> derivable_pt_lim (fun x => - K / (x - p)) x (K / ((x - p) * (x - p))).
Proof.
  intros K p x H. pose proof (derivable_pt_lim_div (fct_cte (- K)) (id - fct_cte p)%F x 0 (1 - 0) (derivable_pt_lim_const (- K) x)
    (derivable_pt_lim_minus id (fct_cte p) x 1 0 (derivable_pt_lim_id x) (derivable_pt_lim_const p x))) as D.
  unfold minus_fct, id, fct_cte, div_fct, Rsqr in D. specialize (D ltac:(lra)). replace (K / ((x - p) * (x - p))) with ((0 * (x - p) - (1 - 0) * - K) / ((x - p) * (x - p))) by (field; lra). exact D.
Qed.

Section Tails.
Variable u : R -> R.
Variable M K lo hi : R.
Hypothesis HM : 0 <= M.
Hypothesis HL : lipschitz u M.
Hypothesis K0 : 0 <= K.
Hypothesis Hlo : forall x, x < lo -> u x <= K / ((x - lo) * (x - lo)).
Hypothesis Hhi : forall x, hi < x -> u x <= K / ((x - hi) * (x - hi)).

Lemma right_tail : forall d b r (pr : Riemann_integrable u b r), 0 < d -> hi + d <= b -> b < r -> RiemannInt pr <= K / d.
Proof.
  intros d b r pr Hd Hb Hr. eapply Rle_trans; [apply (int_le_anti u M (fun x => - K / (x - hi)) (fun x => K / ((x - hi) * (x - hi))) b r HM HL Hr)|].
  - intros c Hc. apply anti_right. lra.
  - intros c Hc. apply Hhi. lra.
  - assert (A : 0 <= K / (r - hi)) by (apply Rmult_le_pos; [exact K0|left; apply Rinv_0_lt_compat; lra]).
    assert (B : K / (b - hi) <= K / d) by (apply Rmult_le_compat_l; [exact K0|apply Rinv_le_contravar; lra]).
    replace (- K / (r - hi) - - K / (b - hi)) with (K / (b - hi) - K / (r - hi)) by (field; lra). lra.
Qed.
Lemma left_tail : forall d a r (pr : Riemann_integrable u r a), 0 < d -> a + d <= lo -> r < a -> RiemannInt pr <= K / d.
Proof.
  intros d a r pr Hd Ha Hr. eapply Rle_trans; [apply (int_le_anti u M (fun x => - K / (x - lo)) (fun x => K / ((x - lo) * (x - lo))) r a HM HL Hr)|].
  - intros c Hc. apply anti_right. lra.
  - intros c Hc. apply Hlo. lra.
  - assert (A : 0 <= K / (lo - r)) by (apply Rmult_le_pos; [exact K0|left; apply Rinv_0_lt_compat; lra]).
    assert (B : K / (lo - a) <= K / d) by (apply Rmult_le_compat_l; [exact K0|apply Rinv_le_contravar; lra]).
    replace (- K / (a - lo) - - K / (r - lo)) with (K / (lo - a) - K / (lo - r)) by (field; lra). lra.
Qed.

Lemma middle : (forall e, 0 < e -> exists r0, forall r (pr : Riemann_integrable u (- r) r), r0 <= r -> 1 - e <= RiemannInt pr) ->
  forall d a b (pr : Riemann_integrable u a b), 0 < d -> a + d <= lo -> hi + d <= b -> 1 - 2 * (K / d) <= RiemannInt pr.
Proof.
  intros Tot d a b pr Hd Ha Hb. apply (le_limit _ _ 1); [lra|]. intros n Hn. assert (Hn' : 0 < INR n) by (apply lt_0_INR; exact Hn).
  destruct (Tot (1 / INR n) ltac:(apply Rdiv_lt_0_compat; lra)) as [r0 H0]. set (r := Rmax r0 (Rmax (Rabs a) (Rabs b)) + 1).
  assert (R1 : r0 <= r) by (unfold r; pose proof (Rmax_l r0 (Rmax (Rabs a) (Rabs b))); lra).
  assert (R2 : Rabs a < r) by (unfold r; pose proof (Rmax_r r0 (Rmax (Rabs a) (Rabs b))); pose proof (Rmax_l (Rabs a) (Rabs b)); lra).
  assert (R3 : Rabs b < r) by (unfold r; pose proof (Rmax_r r0 (Rmax (Rabs a) (Rabs b))); pose proof (Rmax_r (Rabs a) (Rabs b)); lra).
  pose proof (Rle_abs (- a)) as A1. rewrite Rabs_Ropp in A1. pose proof (Rle_abs b) as A2.
  set (p1 := lip_int u M HM HL (- r) a). set (p2 := lip_int u M HM HL b r). set (p3 := lip_int u M HM HL (- r) b). set (p4 := lip_int u M HM HL (- r) r).
  pose proof (@RiemannInt_P26 u (- r) a b p1 pr p3) as E1. pose proof (@RiemannInt_P26 u (- r) b r p3 p2 p4) as E2.
  pose proof (left_tail d a (- r) p1 Hd Ha ltac:(lra)). pose proof (right_tail d b r p2 Hd Hb ltac:(lra)). pose proof (H0 r p4 R1). lra.
Qed.
End Tails.
