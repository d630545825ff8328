(** Proofs about the soft penalties. *)
From Coquelicot Require Import Coquelicot.
From Verif Require Import ParamModel ConsModel ConsSpec ConsProofs.
Local Open Scope R_scope.

Lemma exp_pos_1 x : 1 < 1 + exp x.
Proof. pose proof (exp_pos x); lra. Qed.
Lemma ln1p_pos x : 0 < ln (1 + exp x).
Proof. rewrite <- ln_1. apply ln_increasing; [lra|apply exp_pos_1]. Qed.
Lemma ln1p_le x : 0 < x -> ln (1 + x) <= x.
Proof.
  intros H. rewrite <- (ln_exp x) at 2. apply ln_le; [lra|]. apply Rlt_le, exp_ineq1. lra.
Qed.
Lemma softexp_low x : Rmax 0 x <= ln (1 + exp x).
Proof.
  apply Rmax_lub; [apply Rlt_le, ln1p_pos|]. rewrite <- (ln_exp x) at 1. apply ln_le; [apply exp_pos|].
  pose proof (exp_pos x); lra.
Qed.
Lemma softexp_high x : ln (1 + exp x) <= Rmax 0 x + ln 2.
Proof.
  destruct (Rle_dec 0 x).
  - rewrite Rmax_right by auto. rewrite <- (ln_exp x) at 2. rewrite <- ln_mult; [|apply exp_pos|lra].
    apply ln_le; [pose proof (exp_pos x); lra|]. assert (1 <= exp x); [|lra].
    rewrite <- exp_0. destruct (Req_dec x 0) as [ -> |]; [lra|]. apply Rlt_le, exp_increasing; lra.
  - rewrite Rmax_left by lra. rewrite Rplus_0_l. apply ln_le; [pose proof (exp_pos x); lra|].
    assert (exp x < 1); [|lra]. rewrite <- exp_0. apply exp_increasing; lra.
Qed.
Lemma div_le_compat k a b : 0 < k -> a <= b -> a / k <= b / k.
Proof. intros. apply Rmult_le_compat_r; auto. apply Rlt_le, Rinv_0_lt_compat; auto. Qed.
Lemma div_lt_compat k a b : 0 < k -> a < b -> a / k < b / k.
Proof. intros. apply Rmult_lt_compat_r; auto. apply Rinv_0_lt_compat; auto. Qed.
Lemma rmax_scale k i : 0 < k -> Rmax 0 i = Rmax 0 (i * k) / k.
Proof.
  intros Hk. destruct (Rle_dec 0 i).
  - rewrite !Rmax_right; auto; [field; lra|apply Rmult_le_pos; lra].
  - rewrite !Rmax_left; try lra. nra.
Qed.
Lemma softplus_bounds k i : 0 < k -> Rmax 0 i <= softplus k i <= Rmax 0 i + ln 2 / k.
Proof.
  intros Hk. assert (0 < ln 2 / k).
  { apply Rdiv_lt_0_compat; auto. rewrite <- ln_1. apply ln_increasing; lra. }
  unfold softplus. destruct (Rlt_dec (10 / k) i).
  - assert (0 < 10 / k) by (apply Rdiv_lt_0_compat; lra). rewrite Rmax_right by lra. lra.
  - rewrite (rmax_scale k i Hk). split.
    + apply div_le_compat; auto. apply softexp_low.
    + replace (Rmax 0 (i * k) / k + ln 2 / k) with ((Rmax 0 (i * k) + ln 2) / k) by (field; lra).
      apply div_le_compat; auto. apply softexp_high.
Qed.
Lemma softplus_inside k d : 0 < k -> 0 <= d -> softplus k (- d) <= exp (- d * k) / k.
Proof.
  intros Hk Hd. assert (0 < 10 / k) by (apply Rdiv_lt_0_compat; lra).
  unfold softplus. destruct (Rlt_dec (10 / k) (- d)); [lra|]. apply div_le_compat; auto.
  apply ln1p_le, exp_pos.
Qed.
Lemma softplus_pos k i : 0 < k -> 0 < softplus k i.
Proof.
  intros Hk. unfold softplus. assert (0 < 10 / k) by (apply Rdiv_lt_0_compat; lra).
  destruct (Rlt_dec _ _); [lra|]. apply Rdiv_lt_0_compat; auto. apply ln1p_pos.
Qed.
Lemma softplus_incr k i j : 0 < k -> i < j -> j <= 10 / k \/ 10 / k < i -> softplus k i < softplus k j.
Proof.
  intros Hk Hij H. unfold softplus.
  destruct (Rlt_dec (10 / k) i), (Rlt_dec (10 / k) j); try lra.
  apply div_lt_compat; auto. apply ln_increasing; [pose proof (exp_pos (i * k)); lra|].
  apply Rplus_lt_compat_l, exp_increasing. apply Rmult_lt_compat_r; auto.
Qed.

(** ** Derivatives *)
Lemma d_softplus_form k i : 0 < k -> i < 10 / k -> d_softplus k i = exp (i * k) / (1 + exp (i * k)).
Proof.
  intros Hk Hi. unfold d_softplus. destruct (Rlt_dec (1000 / k) i).
  - assert (10 / k < 1000 / k) by (apply div_lt_compat; lra). lra.
  - replace (- i * k) with (- (i * k)) by ring. rewrite exp_Ropp. pose proof (exp_pos (i * k)).
    field. lra.
Qed.
Lemma softplus_derive k i : 0 < k -> i < 10 / k -> is_derive (softplus k) i (d_softplus k i).
Proof.
  intros Hk Hi. rewrite d_softplus_form by auto.
  apply is_derive_ext_loc with (f := fun i => ln (1 + exp (i * k)) / k).
  - assert (He : 0 < 10 / k - i) by lra. exists (mkposreal _ He). intros y Hy.
    change (Rabs (y - i) < 10 / k - i) in Hy. apply Rabs_def2 in Hy.
    unfold softplus. destruct (Rlt_dec (10 / k) y); [lra|auto].
  - auto_derive.
    + pose proof (exp_pos (i * k)); lra.
    + pose proof (exp_pos (i * k)). field. split; lra.
Qed.
Lemma softplus_derive_high k i : 0 < k -> 10 / k < i -> is_derive (softplus k) i 1.
Proof.
  intros Hk Hi. apply is_derive_ext_loc with (f := fun i => i).
  - assert (He : 0 < i - 10 / k) by lra. exists (mkposreal _ He). intros y Hy.
    change (Rabs (y - i) < i - 10 / k) in Hy. apply Rabs_def2 in Hy.
    unfold softplus. destruct (Rlt_dec (10 / k) y); [auto|lra].
  - auto_derive; auto.
Qed.
Lemma d_softplus_high k i : 0 < k -> 10 / k < i -> Rabs (1 - d_softplus k i) <= exp (-10).
Proof.
  intros Hk Hi. unfold d_softplus. destruct (Rlt_dec (1000 / k) i).
  - rewrite Rminus_diag_eq, Rabs_R0 by auto. apply Rlt_le, exp_pos.
  - set (e := exp (- i * k)). assert (0 < e) by apply exp_pos.
    replace (1 - 1 / (1 + e)) with (e / (1 + e)) by (field; lra).
    rewrite Rabs_pos_eq by (apply Rlt_le, Rdiv_lt_0_compat; lra).
    assert (e <= exp (-10)).
    { apply Rlt_le, exp_increasing. assert (10 < i * k); [|lra].
      apply Rmult_lt_compat_r with (r := k) in Hi; auto. unfold Rdiv in Hi. rewrite Rmult_assoc, Rinv_l in Hi; lra. }
    apply Rle_trans with e; auto. apply Rmult_le_reg_r with (1 + e); [lra|].
    unfold Rdiv. rewrite Rmult_assoc, Rinv_l by lra. nra.
Qed.
(** The derivative, anywhere off the cut, is within e^-10 of what is reported. *)
Lemma softplus_derive_any k i : 0 < k -> i <> 10 / k ->
  exists g, is_derive (softplus k) i g /\ Rabs (g - d_softplus k i) <= exp (-10) /\
            (i < 10 / k -> g = d_softplus k i).
Proof.
  intros Hk Hi. destruct (Rlt_dec i (10 / k)).
  - exists (d_softplus k i). split; [apply softplus_derive; auto|]. split; auto.
    rewrite Rminus_diag_eq, Rabs_R0 by auto. apply Rlt_le, exp_pos.
  - exists 1. split; [apply softplus_derive_high; lra|]. split; [apply d_softplus_high; lra|lra].
Qed.

(** The jump at the cut. *)
Lemma cut_value k : 0 < k -> 10 / k < softplus k (10 / k).
Proof.
  intros Hk. unfold softplus. destruct (Rlt_dec (10 / k) (10 / k)); [lra|].
  apply div_lt_compat; auto. replace (10 / k * k) with 10 by (field; lra).
  rewrite <- (ln_exp 10) at 1. apply ln_increasing; [apply exp_pos|]. pose proof (exp_pos 10); lra.
Qed.

(** ** Bounds penalty *)
Lemma side_low k b p : 0 < k -> b - p <> 10 / k ->
  exists g, is_derive (fun p => softplus k (b - p)) p (- g) /\
            Rabs (g - d_softplus k (b - p)) <= exp (-10) /\ (b - p < 10 / k -> g = d_softplus k (b - p)).
Proof.
  intros Hk Hc. destruct (softplus_derive_any k (b - p) Hk Hc) as (g & H1 & H2 & H3).
  exists g. split; auto. replace (- g) with (scal (-1) g) by (unfold scal; simpl; unfold mult; simpl; ring).
  apply (is_derive_comp (softplus k) (fun p => b - p) p g (-1)); auto.
  auto_derive; auto; ring.
Qed.
Lemma side_high k b p : 0 < k -> p - b <> 10 / k ->
  exists g, is_derive (fun p => softplus k (p - b)) p g /\
            Rabs (g - d_softplus k (p - b)) <= exp (-10) /\ (p - b < 10 / k -> g = d_softplus k (p - b)).
Proof.
  intros Hk Hc. destruct (softplus_derive_any k (p - b) Hk Hc) as (g & H1 & H2 & H3).
  exists g. split; auto. replace g with (scal 1 g) by (unfold scal; simpl; unfold mult; simpl; ring).
  apply (is_derive_comp (softplus k) (fun p => p - b) p g 1); auto.
  auto_derive; auto; ring.
Qed.
Definition off_cut (k : R) (p : R) (lo hi : num) : Prop :=
  match lo with Fin b => b - p <> 10 / k | NInf => True | _ => False end /\
  match hi with Fin b => p - b <> 10 / k | PInf => True | _ => False end.
Definition under_cut (k : R) (p : R) (lo hi : num) : Prop :=
  match lo with Fin b => b - p < 10 / k | NInf => True | _ => False end /\
  match hi with Fin b => p - b < 10 / k | PInf => True | _ => False end.
Lemma low_any k p lo : 0 < k -> match lo with Fin b => b - p <> 10 / k | NInf => True | _ => False end ->
  exists g, is_derive (fun p => nsoftplus k (nsub lo (Fin p))) p (- g) /\
   Rabs (g - (if Req_EM_T (nsoftplus k (nsub lo (Fin p))) 0 then 0 else nd_softplus k (nsub lo (Fin p)))) <= exp (-10) /\
   (match lo with Fin b => b - p < 10 / k | _ => True end ->
     g = if Req_EM_T (nsoftplus k (nsub lo (Fin p))) 0 then 0 else nd_softplus k (nsub lo (Fin p))).
Proof.
  intros Hk H. destruct lo as [| |b|]; try contradiction.
  - exists 0. cbn [nsub nsoftplus nd_softplus]. split; [|split].
    + replace (- 0) with (@zero R_NormedModule) by (unfold zero; simpl; ring). apply (is_derive_const 0).
    + destruct (Req_EM_T 0 0); rewrite Rminus_diag_eq, Rabs_R0 by auto; apply Rlt_le, exp_pos.
    + destruct (Req_EM_T 0 0); auto.
  - cbn [nsub nsoftplus nd_softplus]. pose proof (softplus_pos k (b - p) Hk).
    destruct (Req_EM_T (softplus k (b - p)) 0); [lra|]. apply side_low; auto.
Qed.
Lemma high_any k p hi : 0 < k -> match hi with Fin b => p - b <> 10 / k | PInf => True | _ => False end ->
  exists g, is_derive (fun p => nsoftplus k (nsub (Fin p) hi)) p g /\
   Rabs (g - (if Req_EM_T (nsoftplus k (nsub (Fin p) hi)) 0 then 0 else nd_softplus k (nsub (Fin p) hi))) <= exp (-10) /\
   (match hi with Fin b => p - b < 10 / k | _ => True end ->
     g = if Req_EM_T (nsoftplus k (nsub (Fin p) hi)) 0 then 0 else nd_softplus k (nsub (Fin p) hi)).
Proof.
  intros Hk H. destruct hi as [| |b|]; try contradiction.
  - cbn [nsub nsoftplus nd_softplus]. pose proof (softplus_pos k (p - b) Hk).
    destruct (Req_EM_T (softplus k (p - b)) 0); [lra|]. apply side_high; auto.
  - exists 0. cbn [nsub nsoftplus nd_softplus]. split; [|split].
    + apply (is_derive_const 0).
    + destruct (Req_EM_T 0 0); rewrite Rminus_diag_eq, Rabs_R0 by auto; apply Rlt_le, exp_pos.
    + destruct (Req_EM_T 0 0); auto.
Qed.
Lemma guard_mult (x y I : R) : (if Req_EM_T x 0 then 0 else y * I) = (if Req_EM_T x 0 then 0 else y) * I.
Proof. destruct (Req_EM_T x 0); ring. Qed.
Lemma penalty1_derive k I p lo hi : 0 < k -> off_cut k p lo hi ->
  exists g, is_derive (fun p => penalty1 k I p lo hi) p g /\
            Rabs (g - d_penalty1 k I p lo hi) <= 2 * Rabs I * exp (-10) /\
            (under_cut k p lo hi -> g = d_penalty1 k I p lo hi).
Proof.
  intros Hk [Hl Hh].
  destruct (low_any k p lo Hk Hl) as (g & G1 & G2 & G3). destruct (high_any k p hi Hk Hh) as (h & H1 & H2 & H3).
  exists ((g - h) * I). unfold d_penalty1. rewrite !guard_mult.
  set (dg := if Req_EM_T (nsoftplus k (nsub lo (Fin p))) 0 then 0 else nd_softplus k (nsub lo (Fin p))) in *.
  set (dh := if Req_EM_T (nsoftplus k (nsub (Fin p) hi)) 0 then 0 else nd_softplus k (nsub (Fin p) hi)) in *.
  split; [|split].
  - unfold penalty1.
    apply is_derive_ext with (f := fun p => scal I (minus (opp (nsoftplus k (nsub lo (Fin p)))) (nsoftplus k (nsub (Fin p) hi)))).
    { intros t. unfold scal, minus, opp, plus; simpl. unfold mult; simpl. ring. }
    replace ((g - h) * I) with (scal I (minus (opp (- g)) h)).
    2:{ unfold scal, minus, opp, plus; simpl. unfold mult; simpl. ring. }
    apply (is_derive_scal (fun p => minus (opp (nsoftplus k (nsub lo (Fin p)))) (nsoftplus k (nsub (Fin p) hi)))).
    apply (is_derive_minus (fun p => opp (nsoftplus k (nsub lo (Fin p)))) (fun p => nsoftplus k (nsub (Fin p) hi))); auto.
    apply (is_derive_opp (fun p => nsoftplus k (nsub lo (Fin p)))); auto.
  - replace ((g - h) * I - (dg * I - dh * I)) with (((g - dg) - (h - dh)) * I) by ring.
    rewrite Rabs_mult. replace (2 * Rabs I * exp (-10)) with ((exp (-10) + exp (-10)) * Rabs I) by ring.
    apply Rmult_le_compat_r; [apply Rabs_pos|].
    eapply Rle_trans; [apply Rabs_triang|]. rewrite Rabs_Ropp. lra.
  - intros [U1 U2]. assert (Eg : g = dg) by (apply G3; destruct lo; auto).
    assert (Eh : h = dh) by (apply H3; destruct hi; auto). rewrite Eg, Eh. change (@eq R ((dg - dh) * I) (dg * I - dh * I)). ring.
Qed.

Lemma put_same ps i : put ps i (nth i ps 0) = ps.
Proof. revert i; induction ps; destruct i; simpl; auto; f_equal; auto. Qed.
Lemma bounds_penalty_derive k I ps los his i : 0 < k ->
  length los = length ps -> length his = length ps -> (i < length ps)%nat ->
  off_cut k (nth i ps 0) (nth i los NaN) (nth i his NaN) ->
  exists g, is_derive (fun p => bounds_penalty k I (put ps i p) los his) (nth i ps 0) g /\
    Rabs (g - nth i (d_bounds_penalty k I ps los his) 0) <= 2 * Rabs I * exp (-10) /\
    (under_cut k (nth i ps 0) (nth i los NaN) (nth i his NaN) ->
      g = nth i (d_bounds_penalty k I ps los his) 0).
Proof.
  intros Hk. revert i los his; induction ps as [|p ps IH]; intros i los his Hl Hh Hi Hc; [simpl in Hi; lia|].
  destruct los as [|lo los]; [discriminate|]. destruct his as [|hi his]; [discriminate|].
  simpl in Hl, Hh, Hi. destruct i as [|i]; simpl in *.
  - destruct (penalty1_derive k I p lo hi Hk Hc) as (g & G1 & G2 & G3). exists g. split; auto.
    replace g with (@plus R_NormedModule g 0) by apply Rplus_0_r.
    apply (is_derive_plus (fun p => penalty1 k I p lo hi) (fun _ => bounds_penalty k I ps los his)); auto.
    apply (is_derive_const (bounds_penalty k I ps los his)).
  - destruct (IH i los his) as (g & G1 & G2 & G3); auto; try lia. exists g. split; auto.
    replace g with (@plus R_NormedModule 0 g) by apply Rplus_0_l.
    apply (is_derive_plus (fun _ => penalty1 k I p lo hi) (fun p => bounds_penalty k I (put ps i p) los his)); auto.
    apply (is_derive_const (penalty1 k I p lo hi)).
Qed.

(** ** Penalties of constraints, along any direction *)
Definition gap (c : cons) (x : list R) : R :=
  match c_spec c with
  | Order _ _ => get x (c_j c) - get x (c_i c)
  | _ => Rmin (rmin_fun c x) (rmax_fun c x)
  end.
Lemma soft_of_line k s I a b t0 :
  0 < k -> 0 < s * I -> - (a + t0 * b) * s * I < 10 / k ->
  is_derive (fun t => - softplus k (- (a + t * b) * s * I)) t0
    (d_softplus (k * s * I) (- (a + t0 * b)) * s * I * b).
Proof.
  intros Hk Hs Hc.
  assert (Hs0 : s <> 0) by (intros E; rewrite E in Hs; lra). assert (HI0 : I <> 0) by (intros E; rewrite E in Hs; lra).
  assert (E : d_softplus (k * s * I) (- (a + t0 * b)) = d_softplus k (- (a + t0 * b) * s * I)).
  { rewrite d_softplus_form, d_softplus_form; auto.
    - replace (- (a + t0 * b) * (k * s * I)) with (- (a + t0 * b) * s * I * k) by ring. auto.
    - replace (k * s * I) with (k * (s * I)) by ring. apply Rmult_lt_0_compat; auto.
    - replace (k * s * I) with (k * (s * I)) by ring. replace (10 / (k * (s * I))) with (10 / k / (s * I)).
      2:{ field. repeat split; auto; lra. }
      apply Rmult_lt_reg_r with (s * I); auto. replace (10 / k / (s * I) * (s * I)) with (10 / k) by (field; repeat split; auto; lra).
      lra. }
  rewrite E.
  replace (d_softplus k (- (a + t0 * b) * s * I) * s * I * b)
    with (opp (scal (- b * s * I) (d_softplus k (- (a + t0 * b) * s * I)))).
  2:{ unfold opp, scal; simpl. unfold mult; simpl. ring. }
  apply (is_derive_opp (fun t => softplus k (- (a + t * b) * s * I))).
  apply (is_derive_comp (softplus k) (fun t => - (a + t * b) * s * I) t0).
  - apply softplus_derive; auto.
  - auto_derive; auto. ring.
Qed.
Lemma soft_penalty_derive c I k x v p d : length v = length x ->
  (c_i c < length x)%nat -> (c_j c < length x)%nat -> c_i c <> c_j c ->
  0 < k -> 0 < c_scale c * I ->
  soft_penalty c I k x = Some p -> d_soft_penalty c I k x = Some d ->
  match c_spec c with Ratio _ _ _ _ => rmin_fun c x <> rmax_fun c x | _ => True end ->
  - gap c x * c_scale c * I < 10 / k ->
  is_derive (fun t => match soft_penalty c I k (shift x v t) with Some p => p | None => 0 end) 0 (ip d v).
Proof.
  intros Hv Hi Hj Hij Hk Hs Hp Hd Hne Hg. unfold soft_penalty, d_soft_penalty, gap in *.
  destruct (c_spec c) as [a b lo hi|a b|a lo hi] eqn:Es; [| |discriminate].
  - injection Hd as <-. clear Hp.
    assert (Rm : forall t, rmin_fun c (shift x v t) = rmin_fun c x + t * (get v (c_i c) * c_minn c + get v (c_j c) * c_mind c)).
    { intros t. unfold rmin_fun. rewrite !get_shift by auto. ring. }
    assert (RM : forall t, rmax_fun c (shift x v t) = rmax_fun c x + t * (get v (c_i c) * c_maxn c + get v (c_j c) * c_maxd c)).
    { intros t. unfold rmax_fun. rewrite !get_shift by auto. ring. }
    destruct (Rlt_dec (rmin_fun c x) (rmax_fun c x)) as [L|L].
    + rewrite Rmin_left in * by lra. rewrite ip_two by lia.
      destruct (affine_gap _ _ (get v (c_i c) * c_minn c + get v (c_j c) * c_mind c)
                 (get v (c_i c) * c_maxn c + get v (c_j c) * c_maxd c) L) as (e & He & Hl).
      apply is_derive_ext_loc with (f := fun t => - softplus k (- (rmin_fun c x + t * (get v (c_i c) * c_minn c + get v (c_j c) * c_mind c)) * c_scale c * I)).
      { exists (mkposreal e He). intros t Ht. change (Rabs (t - 0) < e) in Ht. rewrite Rminus_0_r in Ht.
        rewrite Rm, RM, Rmin_left; auto. apply Rlt_le, Hl; auto. }
      pose proof (soft_of_line k (c_scale c) I (rmin_fun c x) (get v (c_i c) * c_minn c + get v (c_j c) * c_mind c) 0 Hk Hs) as D.
      rewrite Rmult_0_l, Rplus_0_r in D. specialize (D Hg).
      match goal with |- is_derive _ _ ?g => match type of D with is_derive _ _ ?h => replace g with h by ring end end.
      exact D.
    + assert (L' : rmax_fun c x < rmin_fun c x) by lra. rewrite Rmin_right in * by lra. rewrite ip_two by lia.
      destruct (affine_gap _ _ (get v (c_i c) * c_maxn c + get v (c_j c) * c_maxd c)
                 (get v (c_i c) * c_minn c + get v (c_j c) * c_mind c) L') as (e & He & Hl).
      apply is_derive_ext_loc with (f := fun t => - softplus k (- (rmax_fun c x + t * (get v (c_i c) * c_maxn c + get v (c_j c) * c_maxd c)) * c_scale c * I)).
      { exists (mkposreal e He). intros t Ht. change (Rabs (t - 0) < e) in Ht. rewrite Rminus_0_r in Ht.
        rewrite Rm, RM, Rmin_right; auto. apply Rlt_le, Hl; auto. }
      pose proof (soft_of_line k (c_scale c) I (rmax_fun c x) (get v (c_i c) * c_maxn c + get v (c_j c) * c_maxd c) 0 Hk Hs) as D.
      rewrite Rmult_0_l, Rplus_0_r in D. specialize (D Hg).
      match goal with |- is_derive _ _ ?g => match type of D with is_derive _ _ ?h => replace g with h by ring end end.
      exact D.
  - injection Hd as <-. rewrite ip_two by lia.
    apply is_derive_ext with (f := fun t => - softplus k (- (get x (c_j c) - get x (c_i c) + t * (get v (c_j c) - get v (c_i c))) * c_scale c * I)).
    { intros t. rewrite !get_shift by auto.
      replace (get x (c_j c) + t * get v (c_j c) - (get x (c_i c) + t * get v (c_i c)))
        with (get x (c_j c) - get x (c_i c) + t * (get v (c_j c) - get v (c_i c))) by ring. auto. }
    pose proof (soft_of_line k (c_scale c) I (get x (c_j c) - get x (c_i c)) (get v (c_j c) - get v (c_i c)) 0 Hk Hs) as D.
    rewrite Rmult_0_l, Rplus_0_r in D. specialize (D Hg).
    match goal with |- is_derive _ _ ?g => match type of D with is_derive _ _ ?h => replace g with h by ring end end.
    exact D.
Qed.
Lemma bounds_penalty_sign k I ps los his : 0 < k -> 0 <= I -> bounds_penalty k I ps los his <= 0.
Proof.
  intros Hk HI. revert los his; induction ps as [|p ps IH]; intros [|lo los] [|hi his]; simpl; try lra.
  specialize (IH los his). assert (penalty1 k I p lo hi <= 0); [|lra]. unfold penalty1.
  assert (forall a, 0 <= nsoftplus k a).
  { intros [| |a|]; simpl; try lra. apply Rlt_le, softplus_pos; auto. }
  pose proof (H (nsub lo (Fin p))). pose proof (H (nsub (Fin p) hi)). nra.
Qed.
Lemma nsoft_feasible k a : 0 < k -> match a with Fin x => x <= 0 | NInf => True | _ => False end ->
  0 <= nsoftplus k a <= ln 2 / k.
Proof.
  intros Hk. assert (0 < ln 2 / k).
  { apply Rdiv_lt_0_compat; auto. rewrite <- ln_1. apply ln_increasing; lra. }
  destruct a as [| |x|]; simpl; intros; try contradiction; try lra.
  pose proof (softplus_bounds k x Hk). rewrite Rmax_left in * by lra. lra.
Qed.
Lemma feasible_penalty k I ps los his : 0 < k -> 0 <= I -> length los = length ps -> length his = length ps ->
  (forall i, (i < length ps)%nat -> at_least (nth i ps 0) (Some (nth i los NaN)) /\ at_most (nth i ps 0) (Some (nth i his NaN))) ->
  - (2 * INR (length ps) * (ln 2 / k) * I) <= bounds_penalty k I ps los his.
Proof.
  intros Hk HI. revert los his; induction ps as [|p ps IH]; intros [|lo los] [|hi his] Hl Hh Hf; try discriminate.
  - simpl. lra.
  - assert (IH' := IH los his ltac:(simpl in *; lia) ltac:(simpl in *; lia)).
    assert (F0 := Hf 0%nat ltac:(simpl; lia)). simpl in F0. destruct F0 as [F1 F2].
    assert (- (2 * INR (length ps) * (ln 2 / k) * I) <= bounds_penalty k I ps los his).
    { apply IH'. intros i Hi. apply (Hf (S i)). simpl; lia. }
    replace (INR (length (p :: ps))) with (INR (length ps) + 1) by (rewrite <- S_INR; auto).
    cbn [bounds_penalty]. unfold penalty1.
    assert (B1 : 0 <= nsoftplus k (nsub lo (Fin p)) <= ln 2 / k).
    { apply nsoft_feasible; auto. destruct lo as [| |b|]; simpl in *; try discriminate; auto. destruct (Rle_dec b p); [lra|discriminate]. }
    assert (B2 : 0 <= nsoftplus k (nsub (Fin p) hi) <= ln 2 / k).
    { apply nsoft_feasible; auto. destruct hi as [| |b|]; simpl in *; try discriminate; auto. destruct (Rle_dec p b); [lra|discriminate]. }
    nra.
Qed.
