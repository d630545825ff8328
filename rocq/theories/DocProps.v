(** C50: the doctor's repairs fix what they report. *)
From Verif Require Import WtModel WtSpec WtProofs WtProps.
From Verif Require Import DocModel DocSpec DocProofs.
Open Scope R_scope.

(** The single checks. *)
(** Chosen but unavailable: reported exactly, with counts and first examples; '+' makes exactly those cells
    available, '-' makes exactly those cells not chosen; nothing else changes. *)
Theorem C50_unavailable_partial g r verbose n w d : wide g d = false -> well_shaped n w d ->
  exists d' diag, chosen_but_not_available g r verbose d = Some (d', diag) /\
    lists_problems verbose w n (bad_av w d) diag /\
    match r with
    | Plus => base d' = base d /\ co d' = co d /\ forall i j, (bad_av w d i j -> av_at d' i j = 1%Z) /\ (~ bad_av w d i j -> av_at d' i j = av_at d i j)
    | Minus => av d' = av d /\ co d' = co d /\ d_wt (base d') = d_wt (base d) /\
        forall i j, (bad_av w d i j -> ch_at d' i j = 0) /\ (~ bad_av w d i j -> ch_at d' i j = ch_at d i j)
    | _ => d' = d
    end.
Proof.
  intros Hw H. destruct (cna_spec g r verbose n w d Hw H) as (d' & diag & E & Hl & _ & _ & Hm).
  exists d', diag. split; [ easy | ]. split; [ easy | ]. destruct r; try easy.
  - destruct Hm as (a & -> & Hm). easy.
  - destruct Hm as (a & -> & Hm). easy.
Qed.
Theorem C50_zero_quantity_partial r verbose n w d : r = Keep \/ r = Minus -> well_shaped n w d ->
  exists d' diag, chosen_but_zero_quantity r verbose d = Some (d', diag) /\
    lists_problems verbose w n (bad_zq w d) diag /\
    match r with
    | Minus => av d' = av d /\ co d' = co d /\ d_wt (base d') = d_wt (base d) /\
        forall i j, (bad_zq w d i j -> ch_at d' i j = 0) /\ (~ bad_zq w d i j -> ch_at d' i j = ch_at d i j)
    | _ => d' = d
    end.
Proof.
  intros Hr H. destruct (zq_spec r verbose n w d Hr H) as (d' & diag & E & Hl & _ & _ & Hm).
  exists d', diag. split; [ easy | ]. split; [ easy | ]. destruct r; try easy. destruct Hm as (a & -> & Hm). easy.
Qed.
Theorem C50_nothing_chosen r verbose n w d : r <> Plus -> well_shaped n w d -> nonneg_choices d ->
  exists d' diag, nothing_chosen_but_nonzero_weight r verbose d = Some (d', diag) /\
    lists_rows verbose n (bad_wt d) diag /\ (r <> Keep -> forall i, ~ bad_wt d' i) /\ (r = Keep -> d' = d) /\
    av d' = av d /\ co d' = co d /\ (forall i j, 0 < ch_at d' i j <-> 0 < ch_at d i j) /\
    (r = Minus -> forall i, (i < n)%nat -> ch_at d' i = ch_at d i /\
       (bad_wt d i -> wt_at d' i = Some 0) /\ (~ nothing_chosen d i -> wt_at d' i = wt_at d i)).
Proof.
  intros Hr H Hn. destruct (noch_spec r verbose n w d Hr H Hn) as (d' & diag & E & H1 & _ & _ & H2 & _ & _ & H3 & H4 & _ & H5 & H6 & H7 & _).
  exists d', diag. repeat (split; [ easy | ]). easy.
Qed.
(** With '*' every choice still counts for as much as after '-', when weight is left. *)
Theorem C50_star_keeps_mass_partial verbose n w d d0 x d' diag c a : well_shaped n w d -> nonneg_choices d ->
  (exists i, bad_wt d i) ->
  nothing_chosen_but_nonzero_weight Minus verbose d = Some (d0, x) -> fst (autoscale_weights (base d0)) <> 0 ->
  nothing_chosen_but_nonzero_weight Star verbose d = Some (d', diag) -> (c < n)%nat ->
  mass (base d') c a = mass (base d0) c a.
Proof.
  intros H Hn Hb E0 Hs E Hc.
  destruct (noch_spec Minus verbose n w d ltac:(discriminate) H Hn) as (d1 & diag1 & E1 & _ & W1 & N1 & _).
  destruct (noch_spec Star verbose n w d ltac:(discriminate) H Hn) as (d2 & diag2 & E2 & _ & _ & _ & _ & _ & _ & _ & _ & _ & _ & _ & _ & St).
  rewrite E in E2. injection E2 as <- <-. rewrite E0 in E1. injection E1 as <- <-.
  destruct (St eq_refl Hb) as (d3 & y & E3 & ->). rewrite E0 in E3. injection E3 as <- <-.
  apply C46_mass_unchanged; [ now apply (base_wf n w) | now apply base_zero_is_none | easy | ]. rewrite (ws_n _ _ _ W1). easy.
Qed.

(** The whole run.  Two steps used below. *)
Lemma av_fixed g r verbose n w d d' diag : r = Plus \/ r = Minus -> wide g d = false -> well_shaped n w d ->
  chosen_but_not_available g r verbose d = Some (d', diag) -> forall i j, ~ bad_av w d' i j.
Proof.
  intros Hr Hw H E i j Hb. destruct (cna_spec g r verbose n w d Hw H) as (d2 & diag2 & E2 & _ & _ & _ & Hm).
  rewrite E in E2. injection E2 as <- <-. destruct Hr as [ -> | -> ]; destruct Hm as (x & -> & Hm); destruct (Hm i j) as [H1 H2].
  - destruct Hb as (B1 & B2 & B3 & B4). destruct (bad_av_dec w d i j) as [Hd|Hd]; [ rewrite (H1 Hd) in B3; discriminate | ].
    apply Hd. rewrite (H2 Hd) in B3. easy.
  - destruct Hb as (B1 & B2 & B3 & B4). destruct (bad_av_dec w d i j) as [Hd|Hd]; [ rewrite (H1 Hd) in B4; lra | ].
    apply Hd. rewrite (H2 Hd) in B4. split; [ | easy ]. cbn in B1.
    pose proof (ws_ch _ _ _ H) as [Hc _]. destruct (Nat.lt_ge_cases i n) as [Hi|Hi]; [ lia | ]. exfalso.
    unfold ch_at, at_ in B4. rewrite (nth_overflow (d_ch (base d))) in B4 by lia. destruct j; cbn in B4; lra.
Qed.
Lemma nonneg_with_ch n w d c : well_shaped n w d -> well_shaped n w (with_ch d c) -> nonneg_choices d ->
  (forall i j, ch_at (with_ch d c) i j = 0 \/ ch_at (with_ch d c) i j = ch_at d i j) -> nonneg_choices (with_ch d c).
Proof.
  intros H H' Hn Hc r x Hr Hx. destruct (In_nth _ r [] Hr) as (i & Hi & <-). destruct (In_nth _ x 0 Hx) as (j & Hj & <-).
  specialize (Hc i j). change (nth j (nth i (d_ch (base (with_ch d c))) []) 0) with (ch_at (with_ch d c) i j).
  destruct Hc as [ -> | -> ]; [ lra | ]. unfold ch_at, at_.
  destruct (Nat.lt_ge_cases i (length (d_ch (base d)))) as [H1|H1]; [ | rewrite (nth_overflow (d_ch (base d))) by easy; destruct j; cbn; lra ].
  destruct (Nat.lt_ge_cases j (length (nth i (d_ch (base d)) []))) as [H2|H2]; [ | rewrite nth_overflow by easy; lra ].
  apply (Hn (nth i (d_ch (base d)) [])); now apply nth_In.
Qed.
Record run (g : graph) (r : repairs) (verbose n w : nat) (d d1 d2 d3 d4 d5 : dd) (p : problems) : Prop := {
  r_zq : chosen_but_zero_quantity (ch_zq r) verbose d = Some (d1, p_zq p);
  r_av : chosen_but_not_available g (ch_av r) verbose d1 = Some (d2, p_av p);
  r_no : nothing_chosen_but_nonzero_weight (noch_nowt r) verbose d2 = Some (d3, p_noch p);
  r_nw : nan_weight (nan_wt r) verbose d3 = (d4, p_nanwt p);
  r_nc : nan_data_co (nan_co r) verbose d4 = (d5, p_nanco p);
  r_w1 : well_shaped n w d1; r_w2 : well_shaped n w d2; r_w3 : well_shaped n w d3; r_w4 : well_shaped n w d4; r_w5 : well_shaped n w d5;
  r_n1 : nonneg_choices d1; r_n2 : nonneg_choices d2; r_n3 : nonneg_choices d3;
  r_c4 : co_shaped d4; r_wd1 : wide g d1 = false }.
Lemma doctor_run g r verbose n w d : wide g d = false -> well_shaped n w d -> nonneg_choices d -> co_shaped d ->
  ch_zq r = Keep \/ ch_zq r = Minus -> noch_nowt r <> Plus ->
  exists d1 d2 d3 d4 d5 p, run g r verbose n w d d1 d2 d3 d4 d5 p /\ doctor g r verbose d = Some (d5, p).
Proof.
  intros Hw H Hn Hc Hzq Hno.
  destruct (zq_spec (ch_zq r) verbose n w d Hzq H) as (d1 & zq & E1 & _ & W1 & _ & M1).
  assert (N1 : nonneg_choices d1 /\ co d1 = co d).
  { destruct Hzq as [Eq|Eq]; rewrite Eq in M1; [ subst d1; auto | ]. destruct M1 as (c & -> & M1). split; [ | easy ].
    apply (nonneg_with_ch n w); [ easy | easy | easy | ]. intros i j. destruct (M1 i j) as [Ha Hb].
    destruct (bad_zq_dec n w d i j H); [ left | right ]; auto. }
  destruct N1 as [N1 C1].
  assert (Hw1 : wide g d1 = false) by (rewrite (wide_same g n w d d1); easy).
  destruct (cna_spec g (ch_av r) verbose n w d1 Hw1 W1) as (d2 & cav & E2 & _ & W2 & _ & M2).
  assert (N2 : nonneg_choices d2 /\ co d2 = co d1).
  { destruct (ch_av r); try (subst d2; auto); destruct M2 as (c & -> & M2); [ auto | ]. split; [ | easy ].
    apply (nonneg_with_ch n w); [ easy | easy | easy | ]. intros i j. destruct (M2 i j) as [Ha Hb].
    destruct (bad_av_dec w d1 i j); [ left | right ]; auto. }
  destruct N2 as [N2 C2].
  destruct (noch_spec (noch_nowt r) verbose n w d2 Hno W2 N2) as (d3 & nch & E3 & _ & W3 & N3 & _ & _ & _ & C3 & _).
  destruct (nan_weight_spec (nan_wt r) verbose n w d3 W3) as (d4 & nw & E4 & _ & W4 & Ch4 & _ & _ & _ & C4 & _).
  assert (Hc4 : co_shaped d4) by (unfold co_shaped; rewrite C4, C3, C2, C1; easy).
  destruct (nan_co_spec (nan_co r) verbose d4 Hc4) as (d5 & nc & E5 & _ & _ & B5 & A5 & _).
  exists d1, d2, d3, d4, d5, (mkProblems zq cav nch nw nc). split.
  - constructor; cbn; try easy. constructor; rewrite ?B5, ?A5; apply W4.
  - unfold doctor. now rewrite E1, E2, E3, E4, E5.
Qed.
(** C50. After doctor with repairs of availability conflicts and of weights without a choice, no alternative is
    both chosen and unavailable, and no case has weight but no choice; NaN weights and case data are gone if asked. *)
Theorem C50_repaired_partial g r verbose n w d : wide g d = false -> well_shaped n w d -> nonneg_choices d -> co_shaped d ->
  ch_zq r = Keep \/ ch_zq r = Minus -> ch_av r = Plus \/ ch_av r = Minus -> noch_nowt r = Minus \/ noch_nowt r = Star ->
  exists d' p, doctor g r verbose d = Some (d', p) /\
    (forall i j, ~ bad_av w d' i j) /\ (forall i, ~ bad_wt d' i) /\
    (nan_wt r = true -> forall i, ~ bad_nanwt d' i) /\ (nan_co r = true -> forall i j, ~ bad_nanco d' i j) /\
    (ch_zq r = Minus -> ch_av r = Minus -> forall i j, ~ bad_zq w d' i j).
Proof.
  intros Hw H Hn Hc Hzq Hav Hno.
  destruct (doctor_run g r verbose n w d Hw H Hn Hc Hzq) as (d1 & d2 & d3 & d4 & d5 & p & R & E); [ destruct Hno as [ -> | -> ]; discriminate | ].
  exists d5, p. split; [ easy | ].
  destruct (noch_spec (noch_nowt r) verbose n w d2 ltac:(destruct Hno as [ -> | -> ]; discriminate) (r_w2 _ _ _ _ _ _ _ _ _ _ _ _ R) (r_n2 _ _ _ _ _ _ _ _ _ _ _ _ R))
    as (d3' & nch & E3 & _ & W3 & N3 & A3 & Q3 & HR3 & C3 & P3 & _ & F3 & _).
  rewrite (r_no _ _ _ _ _ _ _ _ _ _ _ _ R) in E3. injection E3 as <- <-.
  destruct (nan_weight_spec (nan_wt r) verbose n w d3 W3) as (d4' & nw & E4 & _ & W4 & Ch4 & A4 & Q4 & HR4 & C4 & _ & K4 & F4 & V4 & O4).
  rewrite (r_nw _ _ _ _ _ _ _ _ _ _ _ _ R) in E4. injection E4 as <- <-.
  destruct (nan_co_spec (nan_co r) verbose d4 (r_c4 _ _ _ _ _ _ _ _ _ _ _ _ R)) as (d5' & nc & E5 & _ & _ & B5 & A5 & Q5 & HR5 & _ & _ & F5).
  rewrite (r_nc _ _ _ _ _ _ _ _ _ _ _ _ R) in E5. injection E5 as <- <-.
  assert (Ach : forall i j, ch_at d5 i j = ch_at d3 i j) by (intros; unfold ch_at; now rewrite B5, Ch4).
  assert (Aav : forall i j, av_at d5 i j = av_at d2 i j) by (intros; unfold av_at; now rewrite A5, A4, A3).
  assert (Hlen : length (d_ch (base d5)) = length (d_ch (base d2))).
  { rewrite B5, Ch4. destruct (ws_ch _ _ _ W3) as [-> _]. now destruct (ws_ch _ _ _ (r_w2 _ _ _ _ _ _ _ _ _ _ _ _ R)) as [-> _]. }
  split; [ | split; [ | split; [ | split; [ now apply F5 | ] ] ] ].
  - intros i j (B1 & B2 & B3 & B4). apply (av_fixed g (ch_av r) verbose n w d1 d2 _ Hav (r_wd1 _ _ _ _ _ _ _ _ _ _ _ _ R)
      (r_w1 _ _ _ _ _ _ _ _ _ _ _ _ R) (r_av _ _ _ _ _ _ _ _ _ _ _ _ R) i j).
    split; [ lia | ]. split; [ easy | ]. rewrite Aav in B3. split; [ easy | ]. rewrite Ach in B4. now apply P3.
  - intros i (B1 & B2 & wt & v & Ew & Ev & Hv). assert (F : no_bad_wt d3) by (apply F3; destruct Hno as [ -> | -> ]; discriminate).
    rewrite B5 in Ew. destruct (V4 i v) as [Hx|Hx].
    + unfold wt_at. now rewrite Ew.
    + apply (F i). split; [ rewrite B5, Ch4 in B1; easy | ]. split; [ intros j; rewrite <- Ach; apply B2 | ].
      unfold wt_at in Hx. destruct (d_wt (base d3)) as [wt3|] eqn:E3; [ now exists wt3, v | ].
      pose proof (proj2 O4 eq_refl). congruence.
    + destruct Hx as [_ ->]. lra.
  - intros Hf i Hb. apply (F4 Hf i). destruct Hb as (wt & Ew & Hb). rewrite B5 in Ew. now exists wt.
  - intros Z1 Z2 i j (B1 & B2 & B3 & B4 & B5' & q & Eq & Hq).
    destruct (zq_spec (ch_zq r) verbose n w d Hzq H) as (d1' & zq & E1 & _ & W1 & _ & M1).
    rewrite (r_zq _ _ _ _ _ _ _ _ _ _ _ _ R) in E1. injection E1 as <- <-. rewrite Z1 in M1. destruct M1 as (c1 & Ed1 & M1).
    destruct (cna_spec g (ch_av r) verbose n w d1 (r_wd1 _ _ _ _ _ _ _ _ _ _ _ _ R) W1) as (d2' & cav & E2 & _ & W2 & _ & M2).
    rewrite (r_av _ _ _ _ _ _ _ _ _ _ _ _ R) in E2. injection E2 as <- <-. rewrite Z2 in M2. destruct M2 as (c2 & Ed2 & M2).
    rewrite Ach in B4. apply P3 in B4. rewrite Aav in B3. rewrite Q5, Q4, Q3 in Eq. rewrite HR5, HR4, HR3 in B5'.
    destruct (M2 i j) as [M2a M2b]. destruct (bad_av_dec w d1 i j) as [Hd|Hd]; [ rewrite (M2a Hd) in B4; lra | ]. rewrite (M2b Hd) in B4.
    destruct (M1 i j) as [M1a M1b]. destruct (bad_zq_dec n w d i j H) as [Hz|Hz]; [ rewrite (M1a Hz) in B4; lra | ]. rewrite (M1b Hz) in B4.
    apply Hz. subst d2 d1. split; [ | split; [ easy | split; [ exact B3 | split; [ easy | split; [ exact B5' | exists q; auto ] ] ] ] ].
    destruct (ws_ch _ _ _ H) as [Hl _]. rewrite Hl. rewrite Hlen in B1. destruct (ws_ch _ _ _ W2) as [Hl2 _]. now rewrite Hl2 in B1.
Qed.
(** Data without any of the problems are unchanged and nothing is reported, whatever repairs are asked for. *)
Theorem C50_healthy_unchanged g r verbose n w d : wide g d = false -> well_shaped n w d -> nonneg_choices d -> co_shaped d ->
  ch_zq r = Keep \/ ch_zq r = Minus -> noch_nowt r <> Plus -> healthy w d ->
  doctor g r verbose d = Some (d, no_problems).
Proof.
  intros Hw H Hn Hc Hzq Hno (G1 & G2 & G3 & G4 & G5).
  destruct (zq_spec (ch_zq r) verbose n w d Hzq H) as (d1 & zq & E1 & L1 & _ & U1 & _). rewrite (U1 G1) in *.
  destruct (cna_spec g (ch_av r) verbose n w d Hw H) as (d2 & cav & E2 & L2 & _ & U2 & _). rewrite (U2 G2) in *.
  destruct (noch_spec (noch_nowt r) verbose n w d Hno H Hn) as (d3 & nch & E3 & L3 & _ & _ & _ & _ & _ & _ & _ & U3 & _). rewrite (U3 G3) in *.
  destruct (nan_weight_spec (nan_wt r) verbose n w d H) as (d4 & nw & E4 & L4 & _ & _ & _ & _ & _ & _ & U4 & _). rewrite (U4 G4) in *.
  destruct (nan_co_spec (nan_co r) verbose d Hc) as (d5 & nc & E5 & _ & L5 & _ & _ & _ & _ & U5 & _). rewrite (U5 G5) in *.
  unfold doctor. rewrite E1, E2, E3, E4, E5. f_equal. f_equal. unfold no_problems. f_equal.
  - destruct zq as [L|]; [ | easy ]. destruct L1 as [(i & j & Hb) _]. now apply G1 in Hb.
  - destruct cav as [L|]; [ | easy ]. destruct L2 as [(i & j & Hb) _]. now apply G2 in Hb.
  - destruct nch as [[k ex]|]; [ | easy ]. destruct L3 as (Hk & rows & Hr & _ & _ & -> & _). destruct rows as [|i rs]; [ easy | ].
    destruct (proj1 (Hr i) (or_introl eq_refl)) as [_ Hb]. now apply G3 in Hb.
  - destruct nw as [[k ex]|]; [ | easy ]. destruct L4 as (Hk & rows & Hr & _ & _ & -> & _). destruct rows as [|i rs]; [ easy | ].
    destruct (proj1 (Hr i) (or_introl eq_refl)) as [_ Hb]. now apply G4 in Hb.
  - now apply L5.
Qed.
(** Asked for no repairs, the doctor only reports: exactly the problems of the data. *)
Theorem C50_report_only g verbose n w d : wide g d = false -> well_shaped n w d -> nonneg_choices d -> co_shaped d ->
  exists p, doctor g (mkRepairs Keep Keep Keep false false) verbose d = Some (d, p) /\
    lists_problems verbose w n (bad_zq w d) (p_zq p) /\ lists_problems verbose w n (bad_av w d) (p_av p) /\
    lists_rows verbose n (bad_wt d) (p_noch p) /\ lists_rows verbose n (bad_nanwt d) (p_nanwt p) /\
    (p_nanco p = None <-> forall i j, ~ bad_nanco d i j).
Proof.
  intros Hw H Hn Hc.
  destruct (zq_spec Keep verbose n w d (or_introl eq_refl) H) as (d1 & zq & E1 & L1 & _ & _ & U1). subst d1.
  destruct (cna_spec g Keep verbose n w d Hw H) as (d2 & cav & E2 & L2 & _ & _ & U2). subst d2.
  destruct (noch_spec Keep verbose n w d ltac:(discriminate) H Hn) as (d3 & nch & E3 & L3 & _ & _ & _ & _ & _ & _ & _ & _ & _ & U3 & _). rewrite (U3 eq_refl) in *.
  destruct (nan_weight_spec false verbose n w d H) as (d4 & nw & E4 & L4 & _ & _ & _ & _ & _ & _ & _ & U4 & _). rewrite (U4 eq_refl) in *.
  destruct (nan_co_spec false verbose d Hc) as (d5 & nc & E5 & _ & L5 & _ & _ & _ & _ & _ & U5 & _). rewrite (U5 eq_refl) in *.
  exists (mkProblems zq cav nch nw nc). split; [ unfold doctor; cbn [ch_zq ch_av noch_nowt nan_wt nan_co]; now rewrite E1, E2, E3, E4, E5 | ]. easy.
Qed.
(** With repairs: what is reported, in terms of the data as they were given. *)
Theorem C50_reported g r verbose n w d d' p : wide g d = false -> well_shaped n w d -> nonneg_choices d -> co_shaped d ->
  ch_zq r = Keep \/ ch_zq r = Minus -> noch_nowt r <> Plus -> doctor g r verbose d = Some (d', p) ->
  lists_problems verbose w n (bad_zq w d) (p_zq p) /\ lists_problems verbose w n (bad_av w d) (p_av p) /\
  lists_rows verbose n (no_choice_left r w d) (p_noch p) /\ (p_nanco p = None <-> forall i j, ~ bad_nanco d i j).
Proof.
  intros Hw H Hn Hc Hzq Hno E.
  destruct (doctor_run g r verbose n w d Hw H Hn Hc Hzq Hno) as (d1 & d2 & d3 & d4 & d5 & p' & R & E'). rewrite E in E'. injection E' as <- <-.
  destruct (zq_spec (ch_zq r) verbose n w d Hzq H) as (d1' & zq & E1 & L1 & W1 & _ & M1).
  rewrite (r_zq _ _ _ _ _ _ _ _ _ _ _ _ R) in E1. injection E1 as <- <-.
  destruct (cna_spec g (ch_av r) verbose n w d1 (r_wd1 _ _ _ _ _ _ _ _ _ _ _ _ R) W1) as (d2' & cav & E2 & L2 & W2 & _ & M2).
  rewrite (r_av _ _ _ _ _ _ _ _ _ _ _ _ R) in E2. injection E2 as <- <-.
  destruct (noch_spec (noch_nowt r) verbose n w d2 Hno W2 (r_n2 _ _ _ _ _ _ _ _ _ _ _ _ R)) as (d3' & nch & E3 & L3 & W3 & N3 & A3 & Q3 & HR3 & C3 & _).
  rewrite (r_no _ _ _ _ _ _ _ _ _ _ _ _ R) in E3. injection E3 as <- <-.
  destruct (nan_weight_spec (nan_wt r) verbose n w d3 W3) as (d4' & nw & E4 & _ & _ & _ & _ & _ & _ & C4 & _).
  rewrite (r_nw _ _ _ _ _ _ _ _ _ _ _ _ R) in E4. injection E4 as <- <-.
  destruct (nan_co_spec (nan_co r) verbose d4 (r_c4 _ _ _ _ _ _ _ _ _ _ _ _ R)) as (d5' & nc & E5 & _ & L5 & _).
  rewrite (r_nc _ _ _ _ _ _ _ _ _ _ _ _ R) in E5. injection E5 as <- <-.
  destruct (ws_ch _ _ _ H) as [Hl _]. destruct (ws_ch _ _ _ W1) as [Hl1 _]. destruct (ws_ch _ _ _ W2) as [Hl2 _].
  (* what the first repair does to the choices *)
  assert (D1 : av d1 = av d /\ d_wt (base d1) = d_wt (base d) /\ co d1 = co d /\
    forall i j, 0 < ch_at d1 i j <-> 0 < ch_at d i j /\ ~ (ch_zq r = Minus /\ bad_zq w d i j)).
  { destruct Hzq as [Ez|Ez]; rewrite Ez in M1.
    - subst d1. repeat (split; [ easy | ]). intros i j. rewrite Ez. split; [ intros Hp; split; [ easy | intros [? _]; discriminate ] | tauto ].
    - destruct M1 as (c & -> & M1). repeat (split; [ easy | ]). intros i j. destruct (M1 i j) as [Ma Mb].
      destruct (bad_zq_dec n w d i j H) as [Hz|Hz]; [ rewrite (Ma Hz) | rewrite (Mb Hz) ].
      + split; [ lra | ]. intros [_ Hx]. exfalso. apply Hx. auto.
      + split; [ intros Hp; split; [ easy | tauto ] | tauto ]. }
  destruct D1 as (A1 & V1 & C1 & P1).
  assert (B1 : forall i j, bad_av w d1 i j <-> bad_av w d i j).
  { intros i j. unfold bad_av, av_at. rewrite A1, P1, Hl, Hl1. fold (av_at d i j). split; [ tauto | ].
    intros (X1 & X2 & X3 & X4). repeat split; try easy. intros [_ (_ & _ & X5 & _)]. lia. }
  assert (D2 : d_wt (base d2) = d_wt (base d) /\ co d2 = co d /\
    forall i j, 0 < ch_at d2 i j <-> 0 < ch_at d1 i j /\ ~ (ch_av r = Minus /\ bad_av w d i j)).
  { destruct (ch_av r) eqn:Ea; [ subst d2; do 2 (split; [ easy | ]); intros i j; split; [ intros Hp; split; [ easy | intros [? _]; discriminate ] | tauto ] | | | subst d2; do 2 (split; [ easy | ]); intros i j; split; [ intros Hp; split; [ easy | intros [? _]; discriminate ] | tauto ] ].
    - destruct M2 as (a & -> & M2). do 2 (split; [ easy | ]). intros i j. split; [ intros Hp; split; [ easy | intros [? _]; discriminate ] | tauto ].
    - destruct M2 as (c & -> & M2). do 2 (split; [ easy | ]). intros i j. destruct (M2 i j) as [Ma Mb].
      destruct (bad_av_dec w d1 i j) as [Hz|Hz]; [ rewrite (Ma Hz) | rewrite (Mb Hz) ].
      + split; [ lra | ]. intros [_ Hx]. exfalso. apply Hx. split; [ easy | now apply B1 ].
      + split; [ intros Hp; split; [ easy | intros [_ Hx]; apply Hz; now apply B1 ] | tauto ]. }
  destruct D2 as (V2 & C2 & P2).
  split; [ easy | ]. split; [ | split ].
  - destruct (p_av p) as [L|]; cbn in L2 |- *.
    + destruct L2 as [(i & j & X) L2]. split; [ exists i, j; now apply B1 | ]. intros j' k ex. rewrite L2.
      split; intros (Y1 & Y2 & rows & Y3 & Y4); (split; [ easy | split; [ easy | exists rows; split; [ | easy ] ] ]);
        intros i'; rewrite Y3; [ now rewrite B1 | now rewrite B1 ].
    + intros i j X. apply (L2 i j). now apply B1.
  - assert (B3 : forall i, bad_wt d2 i <-> no_choice_left r w d i).
    { intros i. unfold bad_wt, no_choice_left. rewrite Hl2, Hl, V2. split.
      - intros (X1 & X2 & X3). split; [ easy | ]. split; [ | easy ]. intros j Hj. rewrite nothing_not_chosen in X2; [ | apply (r_n2 _ _ _ _ _ _ _ _ _ _ _ _ R) | lia ].
        specialize (X2 j). rewrite P2, P1 in X2.
        destruct (bad_zq_dec n w d i j H) as [Z|Z].
        + destruct Hzq as [Ez|Ez]; [ | left; auto ]. right. destruct (bad_av_dec w d i j) as [Y|Y].
          * destruct (ch_av r); try easy; exfalso; apply X2; (split; [ split; [ easy | intros [? _]; congruence ] | intros [? _]; congruence ]).
          * exfalso. apply X2. split; [ split; [ easy | intros [? _]; congruence ] | tauto ].
        + right. destruct (bad_av_dec w d i j) as [Y|Y].
          * destruct (ch_av r); try easy; exfalso; apply X2; (split; [ split; [ easy | tauto ] | intros [? _]; congruence ]).
          * exfalso. apply X2. tauto.
      - intros (X1 & X2 & X3). split; [ easy | ]. split; [ | easy ]. apply nothing_not_chosen; [ apply (r_n2 _ _ _ _ _ _ _ _ _ _ _ _ R) | lia | ].
        intros j Hj. rewrite P2, P1 in Hj. destruct Hj as [[Y1 Y2] Y3]. destruct (X2 j Y1); tauto. }
    destruct (p_noch p) as [[k ex]|]; cbn in L3 |- *.
    + destruct L3 as (Hk & rows & L3 & L4). split; [ easy | ]. exists rows. split; [ | easy ]. intros i. rewrite L3. now rewrite B3.
    + intros i X. apply (L3 i). now apply B3.
  - rewrite L5. unfold bad_nanco. rewrite C4, C3, C2. easy.
Qed.
(** Run again after repairing everything by removing choices, the doctor finds nothing and changes nothing. *)
Theorem C50_second_run_partial g r verbose n w d : wide g d = false -> well_shaped n w d -> nonneg_choices d -> co_shaped d ->
  ch_zq r = Minus -> ch_av r = Minus -> noch_nowt r = Minus \/ noch_nowt r = Star -> nan_wt r = true -> nan_co r = true ->
  exists d' p, doctor g r verbose d = Some (d', p) /\ doctor g r verbose d' = Some (d', no_problems).
Proof.
  intros Hw H Hn Hc Z1 Z2 Hno F1 F2.
  destruct (C50_repaired_partial g r verbose n w d Hw H Hn Hc (or_intror Z1) (or_intror Z2) Hno) as (d' & p & E & G2 & G3 & G4 & G5 & G1).
  exists d', p. split; [ easy | ].
  assert (Hno' : noch_nowt r <> Plus) by (destruct Hno as [ -> | -> ]; discriminate).
  destruct (doctor_run g r verbose n w d Hw H Hn Hc (or_intror Z1) Hno') as (d1 & d2 & d3 & d4 & d5 & p' & R & E').
  rewrite E in E'. injection E' as <- <-.
  destruct (nan_weight_spec (nan_wt r) verbose n w d3 (r_w3 _ _ _ _ _ _ _ _ _ _ _ _ R)) as (d4' & nw & E4 & _ & _ & Ch4 & _).
  rewrite (r_nw _ _ _ _ _ _ _ _ _ _ _ _ R) in E4. injection E4 as <- <-.
  destruct (nan_co_spec (nan_co r) verbose d4 (r_c4 _ _ _ _ _ _ _ _ _ _ _ _ R)) as (d5' & nc & E5 & _ & _ & B5 & _).
  pose proof E5 as E5'. rewrite (r_nc _ _ _ _ _ _ _ _ _ _ _ _ R) in E5. injection E5 as <- <-.
  apply (C50_healthy_unchanged g r verbose n w).
  - rewrite (wide_same g n w d d' H (r_w5 _ _ _ _ _ _ _ _ _ _ _ _ R)). easy.
  - apply (r_w5 _ _ _ _ _ _ _ _ _ _ _ _ R).
  - unfold nonneg_choices. rewrite B5, Ch4. apply (r_n3 _ _ _ _ _ _ _ _ _ _ _ _ R).
  - pose proof (r_c4 _ _ _ _ _ _ _ _ _ _ _ _ R) as Hc4. unfold nan_data_co in E5'. rewrite F2 in E5'.
    destruct (co d4) as [rows|] eqn:Ec.
    + injection E5' as <- _. intros rows' Er. cbn in Er. injection Er as <-. destruct (Hc4 rows Ec) as (k & _ & Hk). exists k.
      split; [ easy | ]. intros x Hx. apply in_map_iff in Hx as (y & <- & Hy). rewrite map_length. now apply Hk.
    + injection E5' as <- _. intros rows' Er. congruence.
  - now right.
  - easy.
  - split; [ now apply G1 | ]. split; [ easy | ]. split; [ easy | ]. split; [ now apply G4 | now apply G5 ].
Qed.

(** A case that meets the hypotheses: the first case chooses an alternative with no quantity, the second an
    unavailable one, the third nothing, with weights. *)
Definition ex_d : dd := mkDD (mkD 3 [[1; 0]; [0; 1]; [0; 0]] (Some [Some 2; Some 1; Some 4]) 1)
  [[1; 1]; [1; 0]; [1; 1]]%Z (Some (fun i j => if Nat.eqb i 0 && Nat.eqb j 0 then [Some 0] else [Some 5])) (fun _ _ => true)
  (Some [[Some 1]; [None]; [Some 2]]).
Example C50_met : wide None ex_d = false /\ well_shaped 3 2 ex_d /\ nonneg_choices ex_d /\ co_shaped ex_d /\
  bad_zq 2 ex_d 0 0 /\ bad_av 2 ex_d 1 1 /\ bad_wt ex_d 2 /\ bad_nanco ex_d 1 0.
Proof.
  split; [ easy | ]. split.
  { constructor; cbn.
    - split; [ easy | ]. intros r Hr. cbn in Hr. intuition (subst; easy).
    - split; [ easy | ]. intros r Hr. cbn in Hr. intuition (subst; easy).
    - easy.
    - intros wt E. injection E as <-. easy. }
  split; [ intros r x Hr Hx; cbn in Hr; intuition (subst; cbn in *; intuition (subst; lra)) | ].
  split.
  { intros rows E. cbn in E. injection E as <-. exists 1%nat. split; [ easy | ]. intros r Hr. cbn in Hr. intuition (subst; easy). }
  split; [ | split; [ | split ] ].
  - unfold bad_zq, av_at, ch_at, at_; cbn. repeat split; try lia; try lra. eexists. split; [ reflexivity | ]. cbn. intros x [ <- |[] ]. easy.
  - unfold bad_av, av_at, ch_at, at_; cbn. repeat split; try lia; try lra.
  - split; [ cbn; lia | ]. split; [ intros [|[|j]]; unfold ch_at, at_; cbn; try easy; now destruct j | ].
    exists [Some 2; Some 1; Some 4], 4. cbn. repeat split; lra.
  - exists [[Some 1]; [None]; [Some 2]]. split; [ easy | ]. cbn. split; [ lia | easy ].
Qed.
Example C50_healthy_met : exists d, well_shaped 1 1 d /\ nonneg_choices d /\ co_shaped d /\ healthy 1 d.
Proof.
  exists (mkDD (mkD 1 [[1]] (Some [Some 2]) 1) [[1]]%Z None (fun _ _ => true) None). split; [ | split; [ | split ] ].
  - constructor; cbn; [ split; [ easy | intros r [ <- |[] ]; easy ] | split; [ easy | intros r [ <- |[] ]; easy ] | easy | intros wt E; now injection E as <- ].
  - intros r x [ <- |[] ] [ <- |[] ]. lra.
  - intros rows E. discriminate.
  - split; [ intros i j (_ & _ & _ & _ & _ & q & E & _); discriminate | ].
    split; [ intros i j (Hi & Hj & Ha & _); cbn in Hi; replace i with 0%nat in Ha by lia; replace j with 0%nat in Ha by lia; discriminate | ].
    split; [ | split ].
    + intros i (Hi & Hn & _). cbn in Hi. specialize (Hn 0%nat). replace i with 0%nat in Hn by lia. unfold ch_at, at_ in Hn. cbn in Hn. lra.
    + intros i (wt & E & Hi & Hx). cbn in E. injection E as <-. cbn in Hi. replace i with 0%nat in Hx by lia. discriminate.
    + intros i j (rows & E & _). discriminate.
Qed.

(** Making alternatives available ('+') leaves behind chosen alternatives with zero quantity, even when those
    are to be repaired: unavailable ones were not checked. *)
Theorem C50_plus_leaves_zero_quantity_refuted g r verbose n w d d' p i j : wide g d = false -> well_shaped n w d -> nonneg_choices d ->
  co_shaped d -> ch_zq r = Minus -> ch_av r = Plus -> noch_nowt r <> Plus -> doctor g r verbose d = Some (d', p) ->
  bad_av w d i j -> has_row d i j = true -> (exists q, qty d = Some q /\ forall x, In x (q i j) -> x = Some 0) ->
  bad_zq w d' i j.
Proof.
  intros Hw H Hn Hc Z1 Z2 Hno E Hb Hrow (q & Eq & Hq).
  destruct (doctor_run g r verbose n w d Hw H Hn Hc (or_intror Z1) Hno) as (d1 & d2 & d3 & d4 & d5 & p' & R & E'). rewrite E in E'. injection E' as <- <-.
  destruct (zq_spec (ch_zq r) verbose n w d (or_intror Z1) H) as (d1' & zq & E1 & L1 & W1 & _ & M1).
  rewrite (r_zq _ _ _ _ _ _ _ _ _ _ _ _ R) in E1. injection E1 as <- <-. rewrite Z1 in M1. destruct M1 as (c1 & Ed1 & M1).
  destruct (cna_spec g (ch_av r) verbose n w d1 (r_wd1 _ _ _ _ _ _ _ _ _ _ _ _ R) W1) as (d2' & cav & E2 & _ & W2 & _ & M2).
  rewrite (r_av _ _ _ _ _ _ _ _ _ _ _ _ R) in E2. injection E2 as <- <-. rewrite Z2 in M2. destruct M2 as (c2 & Ed2 & M2).
  destruct (noch_spec (noch_nowt r) verbose n w d2 Hno W2 (r_n2 _ _ _ _ _ _ _ _ _ _ _ _ R)) as (d3' & nch & E3 & _ & W3 & _ & A3 & Q3 & HR3 & _ & P3 & _).
  rewrite (r_no _ _ _ _ _ _ _ _ _ _ _ _ R) in E3. injection E3 as <- <-.
  destruct (nan_weight_spec (nan_wt r) verbose n w d3 W3) as (d4' & nw & E4 & _ & W4 & Ch4 & A4 & Q4 & HR4 & _).
  rewrite (r_nw _ _ _ _ _ _ _ _ _ _ _ _ R) in E4. injection E4 as <- <-.
  destruct (nan_co_spec (nan_co r) verbose d4 (r_c4 _ _ _ _ _ _ _ _ _ _ _ _ R)) as (d5' & nc & E5 & _ & _ & B5 & A5 & Q5 & HR5 & _).
  rewrite (r_nc _ _ _ _ _ _ _ _ _ _ _ _ R) in E5. injection E5 as <- <-.
  destruct Hb as (X1 & X2 & X3 & X4). destruct (ws_ch _ _ _ H) as [Hl _].
  assert (Hz : ~ bad_zq w d i j) by (intros (_ & _ & Y & _); lia).
  assert (Hch : ch_at d1 i j = ch_at d i j) by (now apply (M1 i j)).
  assert (Hb1 : bad_av w d1 i j).
  { split; [ destruct (ws_ch _ _ _ W1) as [-> _]; lia | ]. split; [ easy | ]. split; [ subst d1; exact X3 | now rewrite Hch ]. }
  split; [ rewrite B5, Ch4; destruct (ws_ch _ _ _ W3) as [-> _]; lia | ]. split; [ easy | ].
  assert (Hav : av_at d' i j = 1%Z) by (unfold av_at; rewrite A5, A4, A3; now apply (M2 i j)). rewrite Hav. split; [ lia | ].
  split; [ | split ].
  - unfold ch_at. rewrite B5, Ch4. apply P3. subst d2. now rewrite <- Hch in X4.
  - rewrite HR5, HR4, HR3, Ed2, Ed1. easy.
  - exists q. split; [ | easy ]. rewrite Q5, Q4, Q3, Ed2, Ed1. easy.
Qed.
Example C50_plus_met : exists d i j, well_shaped 1 1 d /\ bad_av 1 d i j /\ has_row d i j = true /\
  exists q, qty d = Some q /\ forall x, In x (q i j) -> x = Some 0.
Proof.
  exists (mkDD (mkD 1 [[1]] None 1) [[0]]%Z (Some (fun _ _ => [Some 0])) (fun _ _ => true) None), 0%nat, 0%nat. split; [ | split; [ | split ] ].
  - constructor; cbn; [ split; [ easy | intros r [ <- |[] ]; easy ] | split; [ easy | intros r [ <- |[] ]; easy ] | easy | discriminate ].
  - unfold bad_av, av_at, ch_at, at_; cbn. repeat split; try lia; lra.
  - easy.
  - eexists. split; [ reflexivity | ]. cbn. intros x [ <- |[] ]. easy.
Qed.
(** Without weights the cases without a choice are never found, although each counts with weight one. *)
Theorem C50_unweighted_not_checked_refuted r verbose d i : d_wt (base d) = None ->
  nothing_chosen_but_nonzero_weight r verbose d = Some (d, None) /\ wt_at d i = Some 1.
Proof. intros E. unfold nothing_chosen_but_nonzero_weight, wt_at. now rewrite E. Qed.
(** '*' divides by zero when all the weight is on cases without a choice. *)
Lemma osum_zero l : (forall x, In x l -> x = None \/ x = Some 0) -> osum l = 0.
Proof.
  induction l as [|x l IH]; intros H; [ reflexivity | ]. rewrite osum_cons, IH by (intros y Hy; apply H; now right).
  destruct (H x (or_introl eq_refl)) as [ -> | -> ]; ring.
Qed.
Theorem C50_star_no_weight_left_refuted verbose n w d wt d0 x : well_shaped n w d -> nonneg_choices d -> d_wt (base d) = Some wt ->
  (exists i, bad_wt d i) -> (forall i, (i < n)%nat -> nothing_chosen d i \/ nth i wt None = None \/ nth i wt None = Some 0) ->
  nothing_chosen_but_nonzero_weight Minus verbose d = Some (d0, x) -> fst (autoscale_weights (base d0)) = 0.
Proof.
  intros H Hn Ew (i0 & Hi0) Hz E.
  assert (Ed : d0 = with_wt d (Some (zero_wt (d_ch (base d)) wt))).
  { unfold nothing_chosen_but_nonzero_weight in E. rewrite Ew in E. destruct (filter _ _) as [|k rs] eqn:Ef; [ | now injection E as <- _ ].
    exfalso. assert (Hl : (i0 < n)%nat) by (destruct Hi0 as [Hl _]; destruct (ws_ch _ _ _ H) as [Hc _]; lia).
    assert (Hin : In i0 (filter (fun i => nth i (flag_wt (d_ch (base d)) wt) false) (seq 0 (length (flag_wt (d_ch (base d)) wt))))).
    { apply filter_In. rewrite in_seq, (flag_length n w d wt H Ew). split; [ lia | ]. now apply (flag_nth n w d wt i0 H Hn Ew Hl). }
    now rewrite Ef in Hin. }
  assert (W0 : well_shaped n w d0) by (subst d0; now apply zero_wt_shaped). assert (N0 : nonneg_choices d0) by (subst d0; exact Hn).
  assert (Hw0 : forall i, (i < n)%nat -> case_weight (base d0) i = None \/ case_weight (base d0) i = Some 0).
  { intros i Hi. unfold case_weight. subst d0. cbn [base with_wt with_base d_wt]. rewrite (zero_wt_nth n w d wt i H Ew Hi).
    destruct (nothing (nth i (d_ch (base d)) [])) eqn:En; [ now right | ]. destruct (Hz i Hi) as [Hno|Hno]; [ | easy ].
    exfalso. assert (Ht : nothing (nth i (d_ch (base d)) []) = true); [ | congruence ]. apply nothing_iff; [ | exact Hno ].
    intros y Hy. destruct (ws_ch _ _ _ H) as [Hc _]. apply (Hn (nth i (d_ch (base d)) [])); [ apply nth_In; lia | easy ]. }
  unfold autoscale_weights. destruct (d_wt (extract (base d0))) as [we|] eqn:Ee.
  - cbn [fst]. rewrite osum_zero; [ unfold Rdiv; ring | ]. intros y Hy. destruct (In_nth we y None Hy) as (i & Hi & <-).
    pose proof (extract_wf _ (base_wf n w d0 W0)) as [_ Hwe]. rewrite Ee, extract_n, (ws_n _ _ _ W0) in Hwe. rewrite Hwe in Hi.
    assert (Ec : nth i we None = case_weight (extract (base d0)) i) by (unfold case_weight; now rewrite Ee). rewrite Ec.
    destruct (first_off (d_ch (base d0))) as [k|] eqn:Ef.
    + rewrite (extract_weight (base d0) k i (base_wf n w d0 W0) Ef) by (rewrite (ws_n _ _ _ W0); easy).
      destruct (Nat.ltb i k); [ now apply Hw0 | ]. destruct (Hw0 i Hi) as [ -> | -> ]; [ now left | right ]. cbn. f_equal. ring.
    + unfold extract. rewrite Ef. now apply Hw0.
  - exfalso. unfold extract in Ee. subst d0. destruct (first_off _); cbn in Ee; discriminate.
Qed.

(** ** Choices on nests (wide choice data) *)
Lemma upd_row_length r e : length (upd_row r e) = length r.
Proof.
  unfold upd_row. destruct (Nat.ltb_spec (snd e) (length r)); [ | easy ]. rewrite app_length. cbn [length]. rewrite firstn_length, skipn_length. lia.
Qed.
Lemma cascade_length edges n r : (length r <= n)%nat -> length (av_cascade edges n r) = n.
Proof.
  intros H. unfold av_cascade. assert (G : forall l x, length (fold_left upd_row l x) = length x).
  { induction l as [|e l IH]; intros x; [ easy | ]. cbn. now rewrite IH, upd_row_length. }
  rewrite G, app_length, repeat_length. lia.
Qed.
Lemma wide_view n w N edges d : wide (Some (edges, N)) d = true -> shape n w (av d) -> (w <= N)%nat -> shape n N (av_view (Some (edges, N)) d).
Proof.
  intros Hw [H1 H2] Hle. unfold av_view. rewrite Hw. split; [ now rewrite map_length | ]. intros r Hr.
  apply in_map_iff in Hr as (x & <- & Hx). apply cascade_length. rewrite (H2 x Hx). easy.
Qed.
(** ** What the cascade means: a node is available iff an available alternative lies below it. *)
Lemma upd_row_nth r dn up j : (up < length r)%nat ->
  nth j (upd_row r (dn, up)) 0%Z = if Nat.eqb j up then Z.lor (nth up r 0%Z) (nth dn r 0%Z) else nth j r 0%Z.
Proof.
  intros H. unfold upd_row. cbn [fst snd]. rewrite (proj2 (Nat.ltb_lt _ _) H).
  destruct (Nat.eqb_spec j up) as [ -> |Hne].
  - rewrite app_nth2; rewrite firstn_length_le by lia; [ | lia ]. now rewrite Nat.sub_diag.
  - destruct (Nat.lt_ge_cases j up) as [Hl|Hl].
    + rewrite app_nth1 by (rewrite firstn_length_le; lia).
      transitivity (nth j (firstn up r ++ skipn up r) 0%Z); [ rewrite app_nth1 by (rewrite firstn_length_le; lia); easy | now rewrite firstn_skipn ].
    + rewrite app_nth2; rewrite firstn_length_le by lia; [ | lia ].
      destruct (j - up)%nat as [|k] eqn:E; [ lia | ]. cbn [nth].
      transitivity (nth j (firstn (S up) r ++ skipn (S up) r) 0%Z); [ | now rewrite firstn_skipn ].
      rewrite app_nth2; rewrite firstn_length_le by lia; [ f_equal; lia | lia ].
Qed.
Lemma row_edges dn ups r : (forall u, In u ups -> (dn < u < length r)%nat) ->
  @eq nat (length (fold_left upd_row (map (pair dn) ups) r)) (length r) /\
  forall j, nth j (fold_left upd_row (map (pair dn) ups) r) 0%Z <> 0%Z <->
            nth j r 0%Z <> 0%Z \/ (In j ups /\ nth dn r 0%Z <> 0%Z).
Proof.
  revert r. induction ups as [|u ups IH]; intros r H; [ cbn; split; [ easy | intros j; tauto ] | ].
  cbn [map fold_left]. pose proof (H u (or_introl eq_refl)) as Hu. pose proof (upd_row_length r (dn, u)) as Hl.
  destruct (IH (upd_row r (dn, u))) as [L1 L2]; [ intros v Hv; rewrite Hl; apply H; now right | ].
  split; [ now rewrite L1 | ]. intros j. rewrite L2, !upd_row_nth by lia.
  destruct (Nat.eqb_spec dn u) as [Hd|Hd]; [ lia | ]. cbn [In].
  destruct (Nat.eqb_spec j u) as [ -> |Hj]; [ | intuition congruence ].
  rewrite Z.lor_eq_0_iff. destruct (Z.eq_dec (nth u r 0%Z) 0), (Z.eq_dec (nth dn r 0%Z) 0); tauto.
Qed.
(** Paths that leave nodes below [m] only. *)
Inductive below_m (preds : nat -> list nat) (m a : nat) : nat -> Prop :=
| bm_refl : below_m preds m a a
| bm_step b j : below_m preds m a b -> (b < m)%nat -> In j (preds b) -> below_m preds m a j.
Lemma below_m_S preds m a j : (forall b u, In u (preds b) -> (b < u)%nat) ->
  (below_m preds (S m) a j <-> below_m preds m a j \/ (In j (preds m) /\ below_m preds m a m)).
Proof.
  intros Hp. split.
  - induction 1 as [|b j Hb IH Hlt Hin]; [ left; constructor | ].
    assert (b < m \/ b = m)%nat as [Hb'| -> ] by lia.
    + destruct IH as [IH|[IH _]]; [ left; now apply (bm_step _ _ _ b) | apply Hp in IH; lia ].
    + destruct IH as [IH|[IH _]]; [ now right | apply Hp in IH; lia ].
  - assert (Hm : forall x, below_m preds m a x -> below_m preds (S m) a x).
    { induction 1 as [|b x Hb IH Hlt Hin]; [ constructor | apply (bm_step _ _ _ b); [ easy | lia | easy ] ]. }
    intros [H|[H1 H2]]; [ now apply Hm | apply (bm_step _ _ _ m); [ now apply Hm | lia | easy ] ].
Qed.
Lemma below_all preds N a j : (forall b u, In u (preds b) -> (b < u < N)%nat) -> (below_m preds N a j <-> lies_below preds a j).
Proof.
  intros Hp. split.
  - induction 1 as [|b j Hb IH Hlt Hin]; [ constructor | now apply (lb_step _ _ b) ].
  - induction 1 as [|b j Hb IH Hin]; [ constructor | ]. apply (bm_step _ _ _ b); [ easy | | easy ]. apply Hp in Hin. lia.
Qed.
Lemma cascade_meaning preds N r j : (forall b u, In u (preds b) -> (b < u < N)%nat) -> (length r <= N)%nat ->
  nth j (av_cascade (all_edges preds N) N r) 0%Z <> 0%Z <->
  exists a, (a < length r)%nat /\ nth a r 0%Z <> 0%Z /\ lies_below preds a j.
Proof.
  intros Hp Hr. unfold av_cascade. set (r0 := r ++ repeat 0%Z (N - length r)).
  assert (L0 : length r0 = N) by (unfold r0; rewrite app_length, repeat_length; lia).
  assert (Hz : forall a, nth a r0 0%Z = nth a r 0%Z).
  { intros a. unfold r0. destruct (Nat.lt_ge_cases a (length r)) as [Ha|Ha]; [ now rewrite app_nth1 | ].
    rewrite app_nth2, (nth_overflow r) by lia. apply nth_repeat. }
  assert (G : forall m, (m <= N)%nat -> length (fold_left upd_row (flat_map (fun dn => map (pair dn) (preds dn)) (seq 0 m)) r0) = N /\
    forall j, nth j (fold_left upd_row (flat_map (fun dn => map (pair dn) (preds dn)) (seq 0 m)) r0) 0%Z <> 0%Z <->
      exists a, nth a r0 0%Z <> 0%Z /\ below_m preds m a j).
  { induction m as [|m IH]; intros Hm.
    - cbn. split; [ easy | ]. intros k. split; [ intros H; exists k; split; [ easy | constructor ] | ].
      intros (a & Ha & Hb). inversion Hb as [Hx|b x Hb1 Hb2 Hb3]; [ congruence | lia ].
    - destruct (IH ltac:(lia)) as [L1 L2]. clear IH. rewrite seq_S, flat_map_app, fold_left_app. cbn [flat_map]. rewrite app_nil_r.
      set (r1 := fold_left upd_row (flat_map _ _) r0) in *.
      destruct (row_edges m (preds m) r1) as [K1 K2]; [ intros u Hu; rewrite L1; now apply Hp | ].
      change (0 + m)%nat with m. split; [ now rewrite K1 | ]. intros k. rewrite K2, L2, L2. split.
      + intros [(a & Ha & Hb)|(Hk & a & Ha & Hb)]; exists a; (split; [ easy | ]); apply below_m_S; auto; intros b u Hu; apply Hp in Hu; lia.
      + intros (a & Ha & Hb). apply below_m_S in Hb; [ | intros b u Hu; apply Hp in Hu; lia ].
        destruct Hb as [Hb|[Hk Hb]]; [ left | right; split; [ easy | ] ]; exists a; easy. }
  destruct (G N (Nat.le_refl N)) as [_ G2]. unfold all_edges. rewrite G2. split.
  - intros (a & Ha & Hb). rewrite Hz in Ha. exists a. split; [ | split; [ easy | now apply (below_all preds N) ] ].
    destruct (Nat.lt_ge_cases a (length r)); [ easy | ]. now rewrite nth_overflow in Ha.
  - intros (a & _ & Ha & Hb). exists a. rewrite Hz. split; [ easy | now apply (below_all preds N) ].
Qed.
(** A node (alternative or nest) counts as available in a case exactly when an available alternative
    lies below it in the nesting graph. *)
Theorem C50_nest_available preds N n w d i j : wide (Some (all_edges preds N, N)) d = true -> shape n w (av d) -> (w <= N)%nat ->
  (forall b u, In u (preds b) -> (b < u < N)%nat) -> (i < n)%nat ->
  at_ 0%Z (av_view (Some (all_edges preds N, N)) d) i j <> 0%Z <->
  exists a, (a < w)%nat /\ av_at d i a <> 0%Z /\ lies_below preds a j.
Proof.
  intros Hw [H1 H2] Hle Hp Hi. unfold av_view. rewrite Hw. unfold at_, av_at, at_.
  rewrite (nth_indep _ [] (av_cascade (all_edges preds N) N [])) by (rewrite map_length; lia). rewrite map_nth.
  assert (Hl : length (nth i (av d) []) = w) by (apply H2, nth_In; lia).
  rewrite cascade_meaning by (easy || lia). now rewrite Hl.
Qed.
(** Non-vacuity: two alternatives, a nest over the second, and the root; only the first is available. *)
Example C50_nest_available_example :
  let preds := fun k => match k with 0 => [3] | 1 => [2] | 2 => [3] | _ => [] end%nat in
  av_cascade (all_edges preds 4) 4 [1; 0]%Z = [1; 0; 0; 1]%Z /\ av_cascade (all_edges preds 4) 4 [0; 1]%Z = [0; 1; 1; 1]%Z.
Proof. now vm_compute. Qed.
(** '-' clears exactly the nodes that are chosen although nothing under them is available (by the cascade). *)
Theorem C50_wide_minus edges N verbose n w d : wide (Some (edges, N)) d = true -> shape n N (d_ch (base d)) -> shape n w (av d) -> (w <= N)%nat ->
  exists d' diag, chosen_but_not_available (Some (edges, N)) Minus verbose d = Some (d', diag) /\
    lists_problems verbose N n (fun i j => (i < n)%nat /\ (j < N)%nat /\ at_ 0%Z (av_view (Some (edges, N)) d) i j = 0%Z /\ 0 < ch_at d i j) diag /\
    forall i j, (i < n)%nat -> (j < N)%nat ->
      ch_at d' i j = if (at_ 0%Z (av_view (Some (edges, N)) d) i j =? 0)%Z && Rltb 0 (ch_at d i j) then 0 else ch_at d i j.
Proof.
  intros Hw Hc Ha Hle. pose proof (wide_view n w N edges d Hw Ha Hle) as Hv.
  pose proof (zip_rows_shape (fun a c => (a =? 0)%Z && chosen c) _ _ n N Hv Hc) as Hm. fold (av_mask (Some (edges, N)) d) in Hm.
  assert (Hcell : forall i j, (i < n)%nat -> (j < N)%nat -> cell (av_mask (Some (edges, N)) d) i j = (at_ 0%Z (av_view (Some (edges, N)) d) i j =? 0)%Z && Rltb 0 (ch_at d i j)).
  { intros i j Hi Hj. unfold av_mask. rewrite (zip_rows_cell _ _ _ n N 0%Z 0 i j Hv Hc Hi Hj). easy. }
  pose proof (diagnose_spec n N (av_mask (Some (edges, N)) d) verbose (fun i j => (i < n)%nat /\ (j < N)%nat /\ at_ 0%Z (av_view (Some (edges, N)) d) i j = 0%Z /\ 0 < ch_at d i j) Hm) as Hd.
  assert (Hiff : forall i j, cell (av_mask (Some (edges, N)) d) i j = true <-> (i < n)%nat /\ (j < N)%nat /\ at_ 0%Z (av_view (Some (edges, N)) d) i j = 0%Z /\ 0 < ch_at d i j).
  { intros i j. destruct (Nat.lt_ge_cases i n) as [Hi|Hi]; [ destruct (Nat.lt_ge_cases j N) as [Hj|Hj] | ].
    - rewrite (Hcell i j Hi Hj), andb_true_iff, Z.eqb_eq, Rltb_lt. tauto.
    - rewrite (cell_out n N _ i j Hm) by lia. split; [ discriminate | lia ].
    - rewrite (cell_out n N _ i j Hm) by lia. split; [ discriminate | lia ]. }
  specialize (Hd Hiff). destruct (assign_spec n N (av_mask (Some (edges, N)) d) 0 (d_ch (base d)) 0 Hm Hc) as (oc & Ec & Sc & Cc).
  unfold chosen_but_not_available. destruct (diagnose verbose (av_mask (Some (edges, N)) d)) as [L|] eqn:E.
  - exists (with_ch d oc), (Some L). rewrite Ec. split; [ easy | ]. split; [ easy | ]. intros i j Hi Hj. unfold ch_at at 1.
    cbn [base with_ch with_base d_ch]. rewrite Cc, Hcell by easy. easy.
  - exists d, None. split; [ easy | ]. split; [ easy | ]. intros i j Hi Hj. cbn in Hd. specialize (Hd i j). rewrite <- Hiff, Hcell in Hd by easy.
    destruct (_ && _); [ now exfalso | easy ].
Qed.
Lemma same_shape_false {A} (m : mask) (arr : list (list A)) n w w' : (0 < n)%nat -> shape n w m -> shape n w' arr -> w <> w' -> same_shape m arr = false.
Proof.
  intros Hn [H1 H2] [H3 H4] Hne. destruct m as [|x m]; [ cbn in H1; lia | ]. destruct arr as [|r arr]; [ easy | ]. cbn.
  rewrite (H2 x (or_introl eq_refl)), (H4 r (or_introl eq_refl)). now rewrite (proj2 (Nat.eqb_neq w w') Hne).
Qed.
(** '+' raises instead of repairing when choices are on nests. *)
Theorem C50_wide_plus_raises_refuted edges N verbose n w d i j : wide (Some (edges, N)) d = true -> shape n N (d_ch (base d)) -> shape n w (av d) -> (w < N)%nat ->
  (i < n)%nat -> (j < N)%nat -> at_ 0%Z (av_view (Some (edges, N)) d) i j = 0%Z -> 0 < ch_at d i j ->
  chosen_but_not_available (Some (edges, N)) Plus verbose d = None.
Proof.
  intros Hw Hc Ha Hle Hi Hj Hz Hp. pose proof (wide_view n w N edges d Hw Ha ltac:(lia)) as Hv.
  pose proof (zip_rows_shape (fun a c => (a =? 0)%Z && chosen c) _ _ n N Hv Hc) as Hm. fold (av_mask (Some (edges, N)) d) in Hm.
  unfold chosen_but_not_available. destruct (diagnose verbose (av_mask (Some (edges, N)) d)) as [L|] eqn:E.
  - unfold assign. rewrite (same_shape_false _ (av d) n N w) by (easy || lia). easy.
  - pose proof (proj1 (diagnose_none n N _ verbose Hm) E) as E0. clear E. rename E0 into E. specialize (E i j). unfold av_mask in E.
    rewrite (zip_rows_cell _ _ _ n N 0%Z 0 i j Hv Hc Hi Hj), Hz in E. cbn in E. fold (ch_at d i j) in E. unfold chosen in E. apply Rltb_lt in Hp. congruence.
Qed.
(** The same for wide choices without a model, and '-'. *)
Theorem C50_wide_without_model_raises_refuted verbose n w N d i j : shape n N (d_ch (base d)) -> shape n w (av d) -> (w < N)%nat ->
  (i < n)%nat -> (j < w)%nat -> av_at d i j = 0%Z -> 0 < ch_at d i j ->
  chosen_but_not_available None Minus verbose d = None.
Proof.
  intros Hc Ha Hle Hi Hj Hz Hp.
  assert (Hm : shape n w (av_mask None d)).
  { destruct Hc as [Hc1 Hc2], Ha as [Ha1 Ha2]. unfold av_mask, zip_rows. cbn [av_view]. split; [ rewrite map_length, combine_length; lia | ].
    intros r Hr. apply in_map_iff in Hr as ([x y] & <- & Hx). rewrite map_length, combine_length. cbn.
    rewrite (Ha2 x (in_combine_l _ _ _ _ Hx)), (Hc2 y (in_combine_r _ _ _ _ Hx)). lia. }
  assert (Hx : cell (av_mask None d) i j = true).
  { unfold cell, av_mask, zip_rows. cbn [av_view]. destruct (Hc) as [Hc1 _], (Ha) as [Ha1 _].
    rewrite (map_combine_nth _ (av d) (d_ch (base d)) i [] [] []) by lia. cbn [fst snd].
    rewrite (map_combine_nth _ (nth i (av d) []) (nth i (d_ch (base d)) []) j 0%Z 0 false); [ | rewrite (nth_row_len n w _ i Ha Hi); easy | rewrite (nth_row_len n N _ i Hc Hi); lia ].
    cbn [fst snd]. change (nth j (nth i (av d) []) 0%Z) with (av_at d i j). rewrite Hz. cbn. now apply Rltb_lt. }
  unfold chosen_but_not_available. destruct (diagnose verbose (av_mask None d)) as [L|] eqn:E.
  - unfold assign. rewrite (same_shape_false _ (d_ch (base d)) n w N) by (easy || lia). easy.
  - pose proof (proj1 (diagnose_none n w _ verbose Hm) E) as E0. clear E. rename E0 into E. rewrite E in Hx. discriminate.
Qed.
Definition ex_wide : dd := mkDD (mkD 1 [[0; 1; 0]] None 1) [[1; 0]]%Z None (fun _ _ => true) None.
Example C50_wide_met : wide (Some ([(0, 2); (1, 2)]%nat, 3%nat)) ex_wide = true /\ shape 1 3 (d_ch (base ex_wide)) /\ shape 1 2 (av ex_wide) /\
  at_ 0%Z (av_view (Some ([(0, 2); (1, 2)]%nat, 3%nat)) ex_wide) 0 1 = 0%Z /\ 0 < ch_at ex_wide 0 1 /\
  at_ 0%Z (av_view (Some ([(0, 2); (1, 2)]%nat, 3%nat)) ex_wide) 0 2 = 1%Z.
Proof.
  split; [ easy | ]. split; [ split; [ easy | intros r [ <- |[] ]; easy ] | ]. split; [ split; [ easy | intros r [ <- |[] ]; easy ] | ].
  split; [ reflexivity | ]. split; [ unfold ch_at, at_; cbn; lra | reflexivity ].
Qed.
