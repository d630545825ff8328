(** Proofs about the weight operations. *)
From Verif Require Import WtModel WtSpec.
Open Scope R_scope.

(** ** Sums *)
Lemma fold_plus_acc l a : fold_left Rplus l a = a + fold_left Rplus l 0.
Proof.
  revert a. induction l as [|x l IH]; intros a; cbn; [ ring | ].
  rewrite IH, (IH (0 + x)). ring.
Qed.
Lemma sum_cons x l : sum (x :: l) = x + sum l.
Proof. unfold sum. cbn. rewrite fold_plus_acc. ring. Qed.
Lemma osum_acc l a : fold_left (fun a w => match w with Some w => a + w | None => a end) l a = a + osum l.
Proof.
  unfold osum. revert a. induction l as [|[x|] l IH]; intros a; cbn; [ ring | | apply IH ].
  rewrite IH, (IH (0 + x)). ring.
Qed.
Lemma osum_cons w l : osum (w :: l) = match w with Some x => x | None => 0 end + osum l.
Proof. unfold osum. cbn. destruct w; rewrite osum_acc; unfold osum; ring. Qed.
Lemma osum_scale l k : osum (map (option_map (fun w => w / k)) l) = osum l / k.
Proof.
  induction l as [|w l IH]; [ cbn; unfold osum; cbn; unfold Rdiv; ring | ].
  cbn [map]. rewrite !osum_cons, IH. destruct w; cbn; unfold Rdiv; ring.
Qed.
Lemma sum_div l k : sum (map (fun x => x / k) l) = sum l / k.
Proof.
  induction l as [|x l IH]; [ cbn; unfold sum; cbn; unfold Rdiv; ring | ].
  cbn [map]. rewrite !sum_cons, IH. unfold Rdiv; ring.
Qed.
Lemma sum_nonneg l : Forall (fun x => 0 <= x) l -> 0 <= sum l.
Proof. induction 1; [ unfold sum; cbn; lra | rewrite sum_cons; lra ]. Qed.
Lemma sum_zero_nonneg l : Forall (fun x => 0 <= x) l -> sum l = 0 -> Forall (fun x => x = 0) l.
Proof.
  induction 1 as [|x l Hx Hl IH]; [ constructor | ]. rewrite sum_cons. intros E.
  pose proof (sum_nonneg l Hl). constructor; [ lra | apply IH; lra ].
Qed.
Lemma dotl_cons x l y m : dotl (x :: l) (y :: m) = x * y + dotl l m.
Proof. unfold dotl. cbn [combine map fst snd]. now rewrite sum_cons. Qed.
Lemma dotl_nil m : dotl [] m = 0. Proof. reflexivity. Qed.
Lemma dotl_nil2 l : dotl l [] = 0. Proof. now destruct l. Qed.
Lemma dotl_div l m k : dotl (map (fun x => x / k) l) m = dotl l m / k.
Proof.
  revert m. induction l as [|x l IH]; intros [|y m].
  1,2: cbn [map]; rewrite !dotl_nil; unfold Rdiv; ring.
  - rewrite !dotl_nil2. unfold Rdiv; ring.
  - cbn [map]. rewrite !dotl_cons, IH. unfold Rdiv; ring.
Qed.
Lemma dotl_zero l m : Forall (fun x => x = 0) l -> dotl l m = 0.
Proof.
  intros H. revert m. induction H as [|x l Hx _ IH]; intros [|y m]; [ apply dotl_nil | apply dotl_nil | apply dotl_nil2 | ].
  rewrite dotl_cons, IH, Hx. ring.
Qed.

(** ** Extraction *)
Lemma off_false r : off r = false <-> lo <= sum r <= hi.
Proof.
  unfold off, Rltb. destruct (Rlt_dec (sum r) lo), (Rlt_dec hi (sum r)); cbn; split; try discriminate; try lra; auto.
Qed.
Lemma off_true r : off r = true <-> ~ (lo <= sum r <= hi).
Proof. rewrite <- off_false. destruct (off r); split; congruence. Qed.
Lemma first_off_none ch : first_off ch = None <-> Forall (fun r => off r = false) ch.
Proof.
  induction ch as [|r ch IH]; cbn; [ split; [ constructor | easy ] | ].
  destruct (off r) eqn:E.
  - split; [ discriminate | ]. intros H. inversion H. congruence.
  - destruct (first_off ch); cbn; split; try discriminate.
    + intros H. inversion H as [|? ? ? H']; subst. apply IH in H'. discriminate.
    + intros _. constructor; [ easy | now apply IH ].
    + reflexivity.
Qed.
Lemma first_off_some ch i : first_off ch = Some i ->
  (i < length ch)%nat /\ off (nth i ch []) = true /\ forall j, (j < i)%nat -> off (nth j ch []) = false.
Proof.
  revert i. induction ch as [|r ch IH]; intros i; cbn; [ discriminate | ].
  destruct (off r) eqn:E.
  - intros H. injection H as <-. split; [ lia | split; [ easy | lia ] ].
  - destruct (first_off ch) as [k|]; cbn; [ | discriminate ]. intros H. injection H as <-.
    destruct (IH k eq_refl) as (H1 & H2 & H3). split; [ lia | split; [ easy | ] ].
    intros [|j] Hj; [ easy | apply H3; lia ].
Qed.
Lemma nth_split_map {A} (f : A -> A) l i c d : (i <= length l)%nat -> (c < length l)%nat ->
  nth c (firstn i l ++ map f (skipn i l)) d = if Nat.ltb c i then nth c l d else f (nth c l d).
Proof.
  revert i c. induction l as [|x l IH]; intros i c Hi Hc; cbn [length] in *; [ lia | ].
  destruct i as [|i].
  - cbn [firstn skipn app]. rewrite (nth_indep _ d (f d)) by (rewrite map_length; cbn; lia).
    rewrite map_nth. reflexivity.
  - cbn [firstn skipn app]. destruct c as [|c]; [ reflexivity | ].
    cbn [nth]. rewrite IH by lia. reflexivity.
Qed.
Lemma zip_wt_length wt ch : length (zip_wt wt ch) = length wt.
Proof. revert ch. induction wt as [|w wt IH]; intros [|r ch]; cbn; auto. Qed.
Lemma nth_split_zip wt ch i c : length wt = length ch -> (i <= length ch)%nat -> (c < length ch)%nat ->
  nth c (firstn i wt ++ zip_wt (skipn i wt) (skipn i ch)) None =
  if Nat.ltb c i then nth c wt None else ext_wt (nth c wt None) (nth c ch []).
Proof.
  revert ch i c. induction wt as [|w wt IH]; intros [|r ch] i c E Hi Hc; cbn [length] in *; try lia.
  destruct i as [|i].
  - cbn [firstn skipn app]. change (Nat.ltb c 0) with false. cbn [zip_wt].
    destruct c as [|c]; [ reflexivity | ]. cbn [nth].
    specialize (IH ch 0%nat c ltac:(lia) ltac:(lia) ltac:(lia)). exact IH.
  - cbn [firstn skipn app]. destruct c as [|c]; [ reflexivity | ]. cbn [nth].
    rewrite IH by lia. reflexivity.
Qed.
Definition wt_list (d : dfs) : list (option R) :=
  match d_wt d with Some w => w | None => repeat (Some 1) (d_n d) end.
Lemma wt_list_length d : well_formed d -> length (wt_list d) = d_n d.
Proof. intros [_ H]. unfold wt_list. destruct (d_wt d); [ easy | apply repeat_length ]. Qed.
Lemma nth_repeat_some n c : (c < n)%nat -> nth c (repeat (Some 1) n) None = Some 1.
Proof.
  intros H. revert c H. induction n as [|n IH]; intros c H; [ lia | ]. destruct c; [ easy | ]. cbn. apply IH. lia.
Qed.
Lemma case_weight_list d c : (c < d_n d)%nat -> case_weight d c = nth c (wt_list d) None.
Proof.
  intros Hc. unfold case_weight, wt_list. destruct (d_wt d); [ easy | ]. now rewrite nth_repeat_some.
Qed.
Lemma extract_some d i : first_off (d_ch d) = Some i -> extract d =
  mkD (d_n d) (firstn i (d_ch d) ++ map ext_row (skipn i (d_ch d)))
      (Some (firstn i (wt_list d) ++ zip_wt (skipn i (wt_list d)) (skipn i (d_ch d)))) (d_norm d).
Proof. intros E. unfold extract. rewrite E. reflexivity. Qed.
Lemma extract_n d : d_n (extract d) = d_n d.
Proof. unfold extract. now destruct (first_off (d_ch d)). Qed.
Lemma extract_norm d : d_norm (extract d) = d_norm d.
Proof. unfold extract. now destruct (first_off (d_ch d)). Qed.
Lemma wf_some d i : well_formed d -> first_off (d_ch d) = Some i -> length (d_ch d) = d_n d.
Proof.
  intros [[H|H] _] E; [ | easy ]. rewrite H in E. discriminate.
Qed.
Lemma extract_row d i c : well_formed d -> first_off (d_ch d) = Some i -> (c < d_n d)%nat ->
  nth c (d_ch (extract d)) [] = if Nat.ltb c i then nth c (d_ch d) [] else ext_row (nth c (d_ch d) []).
Proof.
  intros Hw E Hc. rewrite (extract_some d i E). cbn [d_ch].
  pose proof (wf_some d i Hw E). destruct (first_off_some _ _ E) as (Hi & _).
  apply nth_split_map; lia.
Qed.
Lemma extract_weight d i c : well_formed d -> first_off (d_ch d) = Some i -> (c < d_n d)%nat ->
  case_weight (extract d) c =
  if Nat.ltb c i then case_weight d c else ext_wt (case_weight d c) (nth c (d_ch d) []).
Proof.
  intros Hw E Hc. rewrite (case_weight_list d) by easy. rewrite (extract_some d i E). unfold case_weight. cbn [d_wt].
  pose proof (wf_some d i Hw E). destruct (first_off_some _ _ E) as (Hi & _). pose proof (wt_list_length d Hw).
  apply nth_split_zip; lia.
Qed.
Lemma extract_wf d : well_formed d -> well_formed (extract d).
Proof.
  intros Hw. destruct (first_off (d_ch d)) as [i|] eqn:E; [ | unfold extract; now rewrite E ].
  rewrite (extract_some d i E). pose proof (wf_some d i Hw E). destruct (first_off_some _ _ E) as (Hi & _).
  pose proof (wt_list_length d Hw).
  split; cbn [d_ch d_wt d_n].
  - right. rewrite app_length, map_length, firstn_length, skipn_length. lia.
  - rewrite app_length, zip_wt_length, firstn_length, skipn_length. lia.
Qed.
(** One case: the product of choices and weight does not change. *)
Lemma ext_dot r w f : (sum r = 0 -> Forall (fun x => x = 0) r) ->
  omul (ext_wt w r) (dotl (ext_row r) f) = omul w (dotl r f).
Proof.
  intros H. unfold ext_wt, ext_row, Req0. destruct w as [w|]; [ | reflexivity ]. cbn. f_equal.
  destruct (Req_EM_T (sum r) 0) as [E|E].
  - rewrite E. rewrite (dotl_zero r f) by auto. ring.
  - rewrite dotl_div. field. easy.
Qed.
Lemma ext_nth r w a : (sum r = 0 -> Forall (fun x => x = 0) r) ->
  omul (ext_wt w r) (nth a (ext_row r) 0) = omul w (nth a r 0).
Proof.
  intros H. unfold ext_wt, ext_row, Req0. destruct w as [w|]; [ | reflexivity ]. cbn. f_equal.
  destruct (Req_EM_T (sum r) 0) as [E|E].
  - rewrite E. assert (nth a r 0 = 0).
    { destruct (Nat.lt_ge_cases a (length r)) as [Ha|Ha]; [ | now apply nth_overflow ].
      specialize (H E). rewrite Forall_forall in H. apply H, nth_In, Ha. }
    rewrite H0. ring.
  - assert (E2 : nth a (map (fun x => x / sum r) r) 0 = nth a r 0 / sum r).
    { pose proof (map_nth (fun x => x / sum r) r 0 a) as M. cbv beta in M.
      replace (0 / sum r) with 0 in M by (unfold Rdiv; ring). exact M. }
    rewrite E2. field. easy.
Qed.
Lemma in_row d c : zero_is_none d -> sum (nth c (d_ch d) []) = 0 -> Forall (fun x => x = 0) (nth c (d_ch d) []).
Proof.
  intros Hz. destruct (Nat.lt_ge_cases c (length (d_ch d))) as [H|H].
  - apply Hz, nth_In, H.
  - rewrite nth_overflow by easy. constructor.
Qed.
Lemma extract_case_term d f c : well_formed d -> zero_is_none d -> (c < d_n d)%nat ->
  case_term (extract d) f c = case_term d f c.
Proof.
  intros Hw Hz Hc. unfold case_term. destruct (first_off (d_ch d)) as [i|] eqn:E; [ | unfold extract; now rewrite E ].
  rewrite (extract_weight d i c), (extract_row d i c) by easy.
  destruct (Nat.ltb c i); [ easy | ]. apply ext_dot. now apply in_row.
Qed.
Lemma extract_mass d c a : well_formed d -> zero_is_none d -> (c < d_n d)%nat -> mass (extract d) c a = mass d c a.
Proof.
  intros Hw Hz Hc. unfold mass, choice. rewrite extract_norm.
  destruct (first_off (d_ch d)) as [i|] eqn:E; [ | unfold extract; now rewrite E ].
  rewrite (extract_weight d i c), (extract_row d i c) by easy.
  destruct (Nat.ltb c i); [ easy | ]. pose proof (ext_nth (nth c (d_ch d) []) (case_weight d c) a (in_row d c Hz)) as H.
  destruct (case_weight d c) as [w|]; cbn in *; [ | easy ]. injection H as H. f_equal.
  rewrite <- (Rmult_comm (w * sum (nth c (d_ch d) []))), H. ring.
Qed.
Lemma ext_row_sum r : sum (ext_row r) = 0 \/ sum (ext_row r) = 1.
Proof.
  unfold ext_row, Req0. destruct (Req_EM_T (sum r) 0) as [E|E]; [ now left | right ].
  rewrite sum_div. field. easy.
Qed.
Lemma extract_totals d : totals_normal (extract d).
Proof.
  intros r Hr. unfold extract in Hr. destruct (first_off (d_ch d)) as [i|] eqn:E.
  - cbn [d_ch] in Hr. apply in_app_or in Hr as [Hr|Hr].
    + right. destruct (first_off_some _ _ E) as (Hi & _ & Hb).
      apply (In_nth _ _ []) in Hr as (j & Hj & <-). rewrite firstn_length in Hj.
      rewrite <- off_false.
      assert (H : nth j (firstn i (d_ch d)) [] = nth j (d_ch d) []).
      { rewrite <- (firstn_skipn i (d_ch d)) at 2. rewrite app_nth1; [ easy | rewrite firstn_length; lia ]. }
      rewrite H. apply Hb. lia.
    + apply in_map_iff in Hr as (x & <- & _). destruct (ext_row_sum x) as [H|H]; rewrite H; [ now left | ].
      right. unfold lo, hi. lra.
  - right. apply off_false. apply first_off_none in E. rewrite Forall_forall in E. now apply E.
Qed.
Lemma ext_row_zero r : Forall (fun x => x = 0) r -> ext_row r = r.
Proof.
  intros H. unfold ext_row, Req0. destruct (Req_EM_T (sum r) 0) as [|E]; [ easy | ].
  exfalso. apply E. induction H as [|x l Hx _ IH]; [ reflexivity | ]. rewrite sum_cons, Hx.
  rewrite IH; [ ring | ]. intros E2. apply E. now rewrite sum_cons, Hx, E2, Rplus_0_l.
Qed.
Lemma extract_zero_is_none d : zero_is_none d -> zero_is_none (extract d).
Proof.
  intros Hz r Hr E0. unfold extract in Hr. destruct (first_off (d_ch d)) as [i|] eqn:E; [ | now apply Hz ].
  cbn [d_ch] in Hr. apply in_app_or in Hr as [Hr|Hr].
  - apply Hz; [ | easy ]. rewrite <- (firstn_skipn i (d_ch d)). apply in_or_app. now left.
  - apply in_map_iff in Hr as (x & <- & Hx).
    assert (Hin : In x (d_ch d)) by (rewrite <- (firstn_skipn i (d_ch d)); apply in_or_app; now right).
    unfold ext_row, Req0 in *. destruct (Req_EM_T (sum x) 0) as [Ez|Ez]; [ now apply Hz | ].
    rewrite sum_div in E0. exfalso.
    assert (sum x / sum x = 1) by (field; easy). lra.
Qed.

(** ** Rescaling *)
Lemma nth_omap (g : R -> R) wt c : nth c (map (option_map g) wt) None = option_map g (nth c wt None).
Proof. exact (map_nth (option_map g) wt None c). Qed.
Lemma rescale_term d wt k f c : d_wt d = Some wt -> k <> 0 -> 
  omul (case_term (rescale d wt k) f c) (d_norm d * k) = omul (case_term d f c) (d_norm d).
Proof.
  intros E Hk. unfold case_term, case_weight, rescale. cbn [d_wt d_ch]. rewrite E.
  rewrite (nth_omap (fun w => w / k) wt c).
  destruct (nth c wt None) as [w|]; cbn; [ | easy ]. f_equal. field. easy.
Qed.
Lemma rescale_mass d wt k c a : d_wt d = Some wt -> k <> 0 -> mass (rescale d wt k) c a = mass d c a.
Proof.
  intros E Hk. unfold mass, choice, case_weight, rescale. cbn [d_wt d_ch d_norm]. rewrite E.
  rewrite (nth_omap (fun w => w / k) wt c).
  destruct (nth c wt None) as [w|]; cbn; [ | easy ]. f_equal. field. easy.
Qed.
Lemma rescale_wf d wt k : d_wt d = Some wt -> well_formed d -> well_formed (rescale d wt k).
Proof. intros E [H1 H2]. split; cbn; [ easy | ]. rewrite E in H2. now rewrite map_length. Qed.
(** The total depends only on the case terms times the normalization. *)
Lemma omul_omul w x y : omul (omul w x) y = omul w (x * y).
Proof. destruct w; cbn; [ f_equal; ring | easy ]. Qed.
Lemma weighted_ext d d' f n :
  (forall c, (c < n)%nat -> omul (case_term d' f c) (d_norm d') = omul (case_term d f c) (d_norm d)) ->
  omul (weighted_sum d' f n) (d_norm d') = omul (weighted_sum d f n) (d_norm d).
Proof.
  induction n as [|n IH]; intros H.
  - cbn. f_equal. ring.
  - specialize (IH (fun c Hc => H c ltac:(lia))). specialize (H n ltac:(lia)). cbn [weighted_sum].
    destruct (weighted_sum d' f n) as [t'|], (weighted_sum d f n) as [t|]; cbn in IH; try discriminate;
    destruct (case_term d' f n) as [x'|], (case_term d f n) as [x|]; cbn in H; try discriminate; cbn; try easy.
    injection IH as IH. injection H as H. f_equal. lra.
Qed.
(** Same terms: same log likelihood. *)
Lemma loglike_ext d d' f : d_n d' = d_n d ->
  (forall c, (c < d_n d)%nat -> omul (case_term d' f c) (d_norm d') = omul (case_term d f c) (d_norm d)) ->
  loglike d' f = loglike d f.
Proof. intros En H. unfold loglike. rewrite En. now apply weighted_ext. Qed.

(** ** Doing it again *)
Lemma ext_row_one r : sum r = 1 -> ext_row r = r.
Proof.
  intros E. unfold ext_row, Req0. destruct (Req_EM_T (sum r) 0); [ easy | ].
  transitivity (map (fun x : R => x) r); [ | apply map_id ]. apply map_ext. intros x. rewrite E. field.
Qed.
Definition settled (d : dfs) : Prop :=
  forall i c, first_off (d_ch d) = Some i -> (i <= c < d_n d)%nat ->
  sum (nth c (d_ch d) []) = 1 \/
  (sum (nth c (d_ch d) []) = 0 /\ (case_weight d c = Some 0 \/ case_weight d c = None)).
Lemma extract_fixed d wt : well_formed d -> d_wt d = Some wt -> settled d -> extract d = d.
Proof.
  intros Hw Ew Hs. destruct (first_off (d_ch d)) as [i|] eqn:E; [ | unfold extract; now rewrite E ].
  pose proof (extract_wf d Hw) as Hw'. pose proof (wf_some d i Hw E) as Hl. destruct (first_off_some _ _ E) as (Hi & _).
  pose proof (wt_list_length d Hw) as Hlw.
  assert (Ech : d_ch (extract d) = d_ch d).
  { apply (nth_ext _ _ [] []).
    - rewrite (extract_some d i E). cbn [d_ch]. rewrite app_length, map_length, firstn_length, skipn_length. lia.
    - intros c Hc.
      assert (Hc' : (c < d_n d)%nat).
      { rewrite (extract_some d i E) in Hc. cbn [d_ch] in Hc. rewrite app_length, map_length, firstn_length, skipn_length in Hc. lia. }
      rewrite (extract_row d i c) by easy. destruct (Nat.ltb_spec c i); [ easy | ].
      destruct (Hs i c E ltac:(lia)) as [H1|[H0 _]]; [ now apply ext_row_one | ].
      unfold ext_row, Req0. rewrite H0. destruct (Req_EM_T 0 0); easy. }
  assert (Ewt : d_wt (extract d) = d_wt d).
  { rewrite (extract_some d i E). cbn [d_wt]. rewrite Ew. f_equal.
    assert (El : wt_list d = wt) by (unfold wt_list; now rewrite Ew). rewrite El in *.
    apply (nth_ext _ _ None None).
    - rewrite app_length, zip_wt_length, firstn_length, skipn_length. lia.
    - intros c Hc. rewrite app_length, zip_wt_length, firstn_length, skipn_length in Hc.
      rewrite nth_split_zip by lia. destruct (Nat.ltb_spec c i); [ easy | ].
      specialize (Hs i c E ltac:(lia)). unfold case_weight in Hs. rewrite Ew in Hs. unfold ext_wt.
      destruct Hs as [H1|[H0 [Hz|Hz]]].
      + rewrite H1. destruct (nth c wt None); cbn; [ f_equal; ring | easy ].
      + rewrite H0, Hz. cbn. f_equal. ring.
      + now rewrite Hz. }
  destruct d as [n ch w k]. cbn in *. rewrite (extract_some (mkD n ch w k) i E) in *. cbn in *. congruence.
Qed.
Lemma extract_settled d : well_formed d -> settled (extract d).
Proof.
  intros Hw i c E' Hc. rewrite extract_n in Hc.
  destruct (first_off (d_ch d)) as [i0|] eqn:E.
  - assert (Hi : (i0 <= i)%nat).
    { destruct (Nat.lt_ge_cases i i0) as [Hlt|]; [ | easy ]. exfalso.
      destruct (first_off_some _ _ E') as (_ & Hoff & _). rewrite (extract_row d i0 i) in Hoff by (easy || lia).
      rewrite (proj2 (Nat.ltb_lt i i0) Hlt) in Hoff. destruct (first_off_some _ _ E) as (_ & _ & Hb).
      rewrite Hb in Hoff by easy. discriminate. }
    rewrite (extract_row d i0 c), (extract_weight d i0 c) by (easy || lia).
    destruct (Nat.ltb_spec c i0); [ lia | ]. unfold ext_row, ext_wt, Req0.
    destruct (Req_EM_T (sum (nth c (d_ch d) [])) 0) as [Ez|Ez].
    + right. split; [ easy | ]. rewrite Ez. destruct (case_weight d c); [ left; cbn; f_equal; ring | now right ].
    + left. rewrite sum_div. field. easy.
  - exfalso. unfold extract in E'. rewrite E in E'. congruence.
Qed.
Lemma rescale_settled d wt k : d_wt d = Some wt -> settled d -> settled (rescale d wt k).
Proof.
  intros Ew Hs i c E Hc. cbn [d_ch d_n rescale] in *. specialize (Hs i c E Hc).
  unfold case_weight, rescale. cbn [d_wt]. rewrite nth_omap. unfold case_weight in Hs. rewrite Ew in Hs.
  destruct Hs as [H1|[H0 [Hz|Hz]]]; [ now left | right | right ]; (split; [ easy | ]); rewrite Hz; cbn.
  - left. f_equal. unfold Rdiv. ring.
  - now right.
Qed.
Lemma rescale_zero_is_none d wt k : zero_is_none d -> zero_is_none (rescale d wt k).
Proof. easy. Qed.
