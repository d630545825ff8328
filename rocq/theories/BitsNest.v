(** Proofs about the nesting built from systematic alternatives. *)
From Verif Require Import BitsModel BitsSpec BitsProofs BitsCodes.
From Coq Require Import ZifyBool ZifyNat.
Open Scope Z_scope.

Lemma after_total k sizes : (k < length sizes)%nat ->
  total sizes = (total (firstn k sizes) + nth k sizes 0 + after k sizes)%nat.
Proof.
  unfold after. revert k; induction sizes as [|b r IH]; intros k Hk; [simpl in Hk; lia|].
  destruct k as [|k]; [cbn [firstn nth skipn]; unfold total; simpl; lia|].
  cbn [firstn nth]. rewrite !total_cons. rewrite (IH k) by (simpl in Hk; lia). cbn [skipn]. lia.
Qed.
Lemma after_pred k sizes : (S k < length sizes)%nat -> after k sizes = (nth (S k) sizes 0 + after (S k) sizes)%nat.
Proof.
  unfold after. revert k; induction sizes as [|b r IH]; intros k Hk; [simpl in Hk; lia|].
  destruct k as [|k].
  - destruct r; [simpl in Hk; lia|]. reflexivity.
  - cbn [skipn nth]. specialize (IH k ltac:(simpl in Hk; lia)). cbn [skipn] in *. rewrite IH. reflexivity.
Qed.
(** The mask of the first levels. *)
Lemma level_mask_eq sizes k : (k < length sizes)%nat ->
  zsum (firstn (S k) (ideal sizes)) = 2 ^ Z.of_nat (total sizes) - 2 ^ Z.of_nat (after k sizes).
Proof.
  revert k; induction sizes as [|b r IH]; intros k Hk; [simpl in Hk; lia|].
  cbn [ideal firstn]. destruct k as [|k].
  - cbn [firstn zsum fold_right]. unfold after. cbn [skipn]. rewrite total_cons, pow_add. ring.
  - unfold zsum in *. cbn [fold_right]. rewrite (IH k) by (simpl in Hk; lia).
    unfold after. cbn [skipn]. rewrite total_cons, pow_add. ring.
Qed.
Lemma mask_split t a : (a < t)%nat -> 2 ^ Z.of_nat t - 2 ^ Z.of_nat a = (2 ^ Z.of_nat (t - a) - 1) * 2 ^ Z.of_nat a.
Proof. intros H. replace t with ((t - a) + a)%nat at 1 by lia. rewrite pow_add. ring. Qed.
Lemma level_shift t a : (a < t)%nat -> bitmask_shift_value (2 ^ Z.of_nat t - 2 ^ Z.of_nat a) = a.
Proof.
  intros H. rewrite mask_split by auto. destruct (odd_ones (t - a) ltac:(lia)). apply shift_value_mul; auto.
Qed.
Lemma land_level t a y : (a < t)%nat -> 0 <= y < 2 ^ Z.of_nat t ->
  Z.land y (2 ^ Z.of_nat t - 2 ^ Z.of_nat a) = (y / 2 ^ Z.of_nat a) * 2 ^ Z.of_nat a.
Proof.
  intros H Hy. rewrite mask_split by auto. apply Z.bits_inj'. intros i Hi.
  rewrite Z.land_spec, mask_bit by auto. rewrite Z.mul_pow2_bits by lia.
  destruct (Z.leb_spec (Z.of_nat a) i).
  - rewrite <- Z.shiftr_div_pow2 by lia. rewrite Z.shiftr_spec by lia. replace (i - Z.of_nat a + Z.of_nat a) with i by lia.
    destruct (Z.ltb_spec i (Z.of_nat a + Z.of_nat (t - a))); [now rewrite andb_true_r|].
    rewrite andb_false_r. symmetry. destruct (Z.eq_dec y 0) as [->|]; [apply Z.bits_0|].
    apply Z.bits_above_log2; [lia|]. apply Z.log2_lt_pow2; [lia|].
    apply Z.lt_le_trans with (2 ^ Z.of_nat t); [lia|]. apply Z.pow_le_mono_r; lia.
  - rewrite (Z.testbit_neg_r _ (i - Z.of_nat a)) by lia. cbn [andb]. apply andb_false_r.
Qed.
Lemma nests_above_eq sizes k t x :
  (after k sizes < total sizes)%nat -> (k < length sizes)%nat -> 0 <= x ->
  (forall e, (e <= t)%nat -> x + 2 ^ Z.of_nat (after k sizes) * Z.of_nat e < 2 ^ Z.of_nat (total sizes)) ->
  nests_above t (2 ^ Z.of_nat (bitmask_shift_value (zsum (firstn (S k) (ideal sizes))))) (zsum (firstn (S k) (ideal sizes))) x =
  map (fun e => nest_code sizes k e x) (seq 0 (S t)).
Proof.
  intros Ha Hk Hx Hb. unfold nests_above. rewrite level_mask_eq by auto. rewrite level_shift by auto.
  apply map_ext_in. intros e He. apply in_seq in He. pose proof (pow_pos (after k sizes)).
  rewrite land_level; auto.
  - unfold nest_code. f_equal. rewrite Z.mul_comm, Z.div_add by lia. reflexivity.
  - specialize (Hb e ltac:(lia)). assert (0 <= 2 ^ Z.of_nat (after k sizes) * Z.of_nat e) by (apply Z.mul_nonneg_nonneg; lia). lia.
Qed.

(** Room: a packed code whose field [k] has room for [e] more. *)
Lemma room sizes v k e : fits sizes v -> (k < length sizes)%nat -> nth k v 0 + Z.of_nat e < 2 ^ Z.of_nat (nth k sizes 0%nat) ->
  pack sizes v / 2 ^ Z.of_nat (after k sizes) + Z.of_nat e < 2 ^ Z.of_nat (total (firstn k sizes)) * 2 ^ Z.of_nat (nth k sizes 0%nat)
  /\ (pack sizes v / 2 ^ Z.of_nat (after k sizes) + Z.of_nat e) / 2 ^ Z.of_nat (nth k sizes 0%nat) =
     pack sizes v / 2 ^ Z.of_nat (after k sizes) / 2 ^ Z.of_nat (nth k sizes 0%nat)
  /\ pack sizes v + 2 ^ Z.of_nat (after k sizes) * Z.of_nat e < 2 ^ Z.of_nat (total sizes).
Proof.
  intros Hf Hk He. pose proof (pack_bound _ _ Hf) as B. pose proof (pack_field _ _ _ Hf Hk) as F.
  pose proof (after_total _ _ Hk) as T. rewrite T, !pow_add in B.
  pose proof (pow_pos (after k sizes)) as Pa. pose proof (pow_pos (nth k sizes 0%nat)) as Pb. pose proof (pow_pos (total (firstn k sizes))) as Pf.
  set (A := 2 ^ Z.of_nat (after k sizes)) in *. set (Bk := 2 ^ Z.of_nat (nth k sizes 0%nat)) in *. set (Fk := 2 ^ Z.of_nat (total (firstn k sizes))) in *.
  set (x := pack sizes v) in *. set (q := x / A) in *.
  assert (Hq : 0 <= q < Fk * Bk).
  { split; [apply Z.div_pos; lia|]. apply Z.div_lt_upper_bound; lia. }
  pose proof (Z.div_mod q Bk ltac:(lia)) as D. rewrite F in D.
  pose proof (fits_nth _ _ _ Hf Hk) as Hv. fold Bk in Hv.
  assert (Hd : 0 <= q / Bk < Fk). { split; [apply Z.div_pos; lia|]. apply Z.div_lt_upper_bound; lia. }
  set (d := q / Bk) in *.
  split; [nia|]. split.
  - rewrite D. replace (Bk * d + nth k v 0 + Z.of_nat e) with (d * Bk + (nth k v 0 + Z.of_nat e)) by ring.
    rewrite Z.div_add_l by lia. rewrite (Z.div_small (nth k v 0 + Z.of_nat e)) by lia. lia.
  - rewrite T, !pow_add. fold A Bk Fk. pose proof (Z.div_mod x A ltac:(lia)) as DA. fold q in DA.
    pose proof (Z.mod_pos_bound x A ltac:(lia)).
    assert (Hqe : q + Z.of_nat e + 1 <= Fk * Bk) by (rewrite D; nia).
    apply Z.lt_le_trans with (A * (q + Z.of_nat e + 1)); [lia|].
    replace (Fk * Bk * A) with (A * (Fk * Bk)) by ring. apply Z.mul_le_mono_nonneg_l; lia.
Qed.

Lemma skipn_cons_inv (t : nat) rest lvl : forall cov, t :: rest = skipn lvl cov -> t = nth lvl cov 0%nat /\ rest = skipn (S lvl) cov.
Proof.
  induction lvl as [|l IHl]; intros cov Hr; destruct cov as [|b cov]; try discriminate.
  - cbn in Hr. injection Hr as <- <-. auto.
  - cbn [skipn nth] in Hr |- *. destruct cov as [|c cov]; [destruct l; discriminate|]. apply IHl. exact Hr.
Qed.

Section Edges.
Variables (complete : list (option (list Z))) (padding : nat) (rows : list row) (x : list Z) (sa : sysalts).
Hypothesis Hnew : new_alternative_codes complete padding rows = Some (x, sa).
Hypothesis Hbits : (bits_needed complete padding rows <= 62)%nat.
Hypothesis Hpow : no_power_of_two rows.
Let sizes := field_sizes complete padding rows.
Let g := length complete.

Lemma g_sizes : length sizes = S g.
Proof. unfold sizes, field_sizes. rewrite app_length, map_length, level_lists_length. simpl. unfold g. lia. Qed.
(** Packed codes of the rows, with room for the padding in every category. *)
Lemma code_room c k e : In c x -> (k < g)%nat -> (e <= padding)%nat ->
  exists v, fits sizes v /\ c = pack sizes v /\ 1 <= nth k v 0 /\ nth k v 0 + Z.of_nat e < 2 ^ Z.of_nat (nth k sizes 0%nat) /\ 1 <= nth g v 0.
Proof.
  intros Hc Hk He. destruct (In_nth _ _ 0 Hc) as (i & Hi & <-).
  destruct (new_codes_nth _ _ _ _ _ Hnew) as [Hcodes _]. destruct (codes_of_nth _ _ _ _ _ Hcodes) as [Hlx _].
  rewrite Hlx in Hi. destruct (code_fields _ _ _ _ _ _ Hnew Hbits Hi (ordinal_lt_pow _ _ Hi Hpow)) as (ds & Hd & Hf & Ec).
  exists (vals ds ++ [Z.of_nat (ordinal rows i)]). split; [exact Hf|]. split; [exact Ec|].
  destruct (digits_spec _ _ _ Hd) as (Hl & _ & Hn). rewrite level_lists_length in Hl, Hn. fold g in Hl, Hn.
  destruct (Hn k Hk) as [Hlt _].
  assert (Hv : nth k (vals ds ++ [Z.of_nat (ordinal rows i)]) 0 = Z.of_nat (nth k ds 0%nat) + 1).
  { rewrite app_nth1 by (unfold vals; rewrite map_length; lia).
    unfold vals. rewrite (nth_indep _ 0 (Z.of_nat 0 + 1)) by (rewrite map_length; lia). apply (map_nth (fun d => Z.of_nat d + 1)). }
  rewrite Hv. split; [lia|]. split.
  - assert (Hs : nth k sizes 0%nat = Nat.log2_up (length (nth k (level_lists complete rows) []) + 1 + padding)).
    { unfold sizes, field_sizes. rewrite app_nth1 by (rewrite map_length, level_lists_length; auto).
      set (f := fun a : list Z => Nat.log2_up (length a + 1 + padding)).
      rewrite (nth_indep _ 0%nat (f [])) by (rewrite map_length, level_lists_length; auto). apply map_nth. }
    rewrite Hs. pose proof (log2_up_enough (length (nth k (level_lists complete rows) []) + 1 + padding) ltac:(lia)) as L.
    apply Nat2Z.inj_le in L. rewrite (Nat2Z.inj_pow 2) in L. simpl (Z.of_nat 2) in L. lia.
  - rewrite app_nth2 by (unfold vals; rewrite map_length; lia). unfold vals. rewrite map_length, Hl. rewrite Nat.sub_diag. cbn [nth].
    pose proof (ordinal_pos rows i). lia.
Qed.
Lemma size_pos k : (k < g)%nat -> x <> [] -> (0 < nth k sizes 0)%nat.
Proof.
  intros Hk Hx. assert (X : exists c, In c x) by (clear -Hx; destruct x as [|z l]; [contradiction|exists z; left; auto]).
  destruct X as [c Hc]. destruct (code_room c k 0 Hc Hk ltac:(lia)) as (v & Hf & _ & H1 & H2 & _).
  destruct (nth k sizes 0%nat); [simpl in H2; lia|lia].
Qed.
Lemma codes_in c : In c (sa_codes sa) <-> In c x.
Proof.
  destruct (new_codes_nth _ _ _ _ _ Hnew) as [_ ->]. cbn [sa_codes]. unfold unique.
  assert (U : forall l v, In c (uinsert v l) <-> c = v \/ In c l).
  { clear. induction l as [|a l IH]; intros v; cbn [uinsert]; [simpl; intuition|].
    destruct (v <? a); [simpl; intuition|]. destruct (Z.eqb_spec v a); [subst; simpl; intuition|].
    simpl. rewrite IH. intuition. }
  clear -U. induction x as [|a l IH]; [reflexivity|]. cbn [fold_right]. rewrite U, IH. simpl. intuition.
Qed.
Lemma unique_in l c : In c (unique l) <-> In c l.
Proof.
  unfold unique. assert (U : forall l v, In c (uinsert v l) <-> c = v \/ In c l).
  { clear. induction l as [|a l IH]; intros v; cbn [uinsert]; [simpl; intuition|].
    destruct (v <? a); [simpl; intuition|]. destruct (Z.eqb_spec v a); [subst; simpl; intuition|].
    simpl. rewrite IH. intuition. }
  induction l as [|a l IH]; [reflexivity|]. cbn [fold_right]. rewrite U, IH. simpl. intuition.
Qed.
Lemma sa_mask_eq : sa_mask sa = ideal sizes.
Proof.
  destruct (new_codes_nth _ _ _ _ _ Hnew) as [_ ->]. cbn [sa_mask]. unfold sizes. rewrite field_sizes_eq. apply sa_masks_eq.
  assert (Hb' : (total (level_sizes padding (level_lists complete rows)) + clog2 (maxn (ordinals rows)) <= 62)%nat) by exact Hbits. lia.
Qed.
Lemma after_lt k c : In c x -> (k < g)%nat -> (after k sizes < total sizes)%nat.
Proof.
  intros Hc Hk. rewrite (after_total k) by (rewrite g_sizes; lia).
  pose proof (size_pos k Hk ltac:(intros E; rewrite E in Hc; contradiction)). lia.
Qed.
Let lm k := zsum (firstn (S k) (ideal sizes)).
Let m1 k := 2 ^ Z.of_nat (bitmask_shift_value (lm k)).

Lemma above_code c k t p : In c x -> (k < g)%nat -> (t <= padding)%nat ->
  (In p (nests_above t (m1 k) (lm k) c) <-> exists e, (e <= t)%nat /\ p = nest_code sizes k e c).
Proof.
  intros Hc Hk Ht. unfold m1, lm. rewrite nests_above_eq.
  - rewrite in_map_iff. split.
    + intros (e & <- & He). apply in_seq in He. exists e. split; [lia|auto].
    + intros (e & He & ->). exists e. split; [auto|]. apply in_seq. lia.
  - apply (after_lt k c); auto.
  - rewrite g_sizes. lia.
  - destruct (code_room c k 0 Hc Hk ltac:(lia)) as (v & Hf & -> & _). apply pack_nonneg. auto.
  - intros e He. destruct (code_room c k e Hc Hk ltac:(lia)) as (v & Hf & -> & _ & H2 & _).
    apply (room sizes v k e Hf); [rewrite g_sizes; lia|auto].
Qed.
Lemma nest_div c k e : In c x -> (S k < g)%nat -> (e <= padding)%nat ->
  nest_code sizes (S k) e c / 2 ^ Z.of_nat (after k sizes) = c / 2 ^ Z.of_nat (after k sizes).
Proof.
  intros Hc Hk He. rewrite (after_pred k) by (rewrite g_sizes; lia). rewrite pow_add.
  destruct (code_room c (S k) e Hc Hk He) as (v & Hf & -> & _ & H2 & _).
  destruct (room sizes v (S k) e Hf ltac:(rewrite g_sizes; lia) H2) as (_ & R & _).
  pose proof (pow_pos (nth (S k) sizes 0%nat)). pose proof (pow_pos (after (S k) sizes)).
  rewrite !(Z.mul_comm (2 ^ Z.of_nat (nth (S k) sizes 0%nat))). rewrite <- !Z.div_div by lia.
  unfold nest_code. rewrite Z.div_mul by lia. exact R.
Qed.
Lemma above_nest c k t e p : In c x -> (S k < g)%nat -> (t <= padding)%nat -> (e <= padding)%nat ->
  (In p (nests_above t (m1 k) (lm k) (nest_code sizes (S k) e c)) <-> exists e', (e' <= t)%nat /\ p = nest_code sizes k e' c).
Proof.
  intros Hc Hk Ht He.
  assert (Q : forall e', nest_code sizes k e' (nest_code sizes (S k) e c) = nest_code sizes k e' c).
  { intros e'. unfold nest_code at 1 3. rewrite nest_div by auto. reflexivity. }
  pose proof (pow_pos (after k sizes)) as Pa. pose proof (pow_pos (after (S k) sizes)) as Ps.
  destruct (code_room c k 0 Hc ltac:(lia) ltac:(lia)) as (v & Hf & Ec & _).
  pose proof (pack_nonneg _ _ Hf) as Hp. rewrite <- Ec in Hp.
  unfold m1, lm. rewrite nests_above_eq.
  - rewrite in_map_iff. split.
    + intros (e' & <- & He'). apply in_seq in He'. exists e'. split; [lia|auto].
    + intros (e' & He' & ->). exists e'. split; [auto|]. apply in_seq. lia.
  - apply (after_lt k c); auto. lia.
  - rewrite g_sizes. lia.
  - unfold nest_code. apply Z.mul_nonneg_nonneg; [|lia]. apply Z.add_nonneg_nonneg; [|lia]. apply Z.div_pos; lia.
  - intros e' He'. destruct (code_room c k e' Hc ltac:(lia) ltac:(lia)) as (w & Hfw & Ew & _ & H2 & _).
    destruct (room sizes w k e' Hfw ltac:(rewrite g_sizes; lia) H2) as (R1 & _ & _). rewrite <- Ew in R1.
    rewrite <- (nest_div c k e Hc Hk He) in R1.
    rewrite (after_total k sizes) by (rewrite g_sizes; lia). rewrite !pow_add.
    pose proof (Z.div_mod (nest_code sizes (S k) e c) (2 ^ Z.of_nat (after k sizes)) ltac:(lia)) as D.
    pose proof (Z.mod_pos_bound (nest_code sizes (S k) e c) (2 ^ Z.of_nat (after k sizes)) Pa) as M.
    set (q := nest_code sizes (S k) e c / 2 ^ Z.of_nat (after k sizes)) in *. rewrite D.
    set (r := nest_code sizes (S k) e c mod 2 ^ Z.of_nat (after k sizes)) in *. nia.
Qed.

Variable root : Z.
Variable cov : list nat.
Hypothesis Hcov : length cov = g.
Hypothesis Hpad : forall k, (k < g)%nat -> (nth k cov 0 - 1 <= padding)%nat.

Definition is_edge (lvl : nat) (p c : Z) : Prop :=
  (exists a k e, In a x /\ (lvl <= k < g)%nat /\ (e <= nth k cov 0 - 1)%nat /\ c = nest_code sizes k e a /\
     match k with
     | O => p = root
     | S j => exists e', (e' <= nth j cov 0 - 1)%nat /\ p = nest_code sizes j e' a
     end) \/
  (In c x /\ exists e', (e' <= nth (g - 1) cov 0 - 1)%nat /\ p = nest_code sizes (g - 1) e' c).

Lemma levels_iff rest : forall lvl pm p1 pt, (0 < g)%nat ->
  rest = skipn lvl cov -> (lvl <= g)%nat ->
  (match lvl with O => True | S j => pm = lm j /\ p1 = m1 j /\ pt = (nth j cov 0 - 1)%nat end) ->
  forall p c, In (p, c) (nest_levels root (ideal sizes) (sa_codes sa) rest lvl pm p1 pt) <-> is_edge lvl p c.
Proof.
  induction rest as [|t rest IH]; intros lvl pm p1 pt Hg Hr Hlvl Hprev p c.
  - assert (lvl = g) as ->. { destruct (Nat.eq_dec lvl g); [auto|]. exfalso. assert (length (skipn lvl cov) = 0%nat) by (rewrite <- Hr; auto). rewrite skipn_length in H. lia. }
    assert (Eg : exists j, g = S j) by (exists (g - 1)%nat; lia). destruct Eg as [j Eg]. rewrite Eg in Hprev. destruct Hprev as (-> & -> & ->).
    cbn [nest_levels]. rewrite in_flat_map. unfold is_edge. replace (g - 1)%nat with j by lia. split.
    + intros (a & Ha & Hin). apply codes_in in Ha. apply in_map_iff in Hin. destruct Hin as (q & E & Hq). injection E as <- <-.
      right. split; [auto|]. apply above_code in Hq; auto; try lia. apply Hpad. lia.
    + intros [(a & k & e & _ & Hk & _)|[Hc He]]; [lia|]. exists c. split; [apply codes_in; auto|]. apply in_map_iff.
      exists p. split; [auto|]. apply above_code; auto; try lia. apply Hpad. lia.
  - assert (Hlt : (lvl < g)%nat).
    { destruct (Nat.eq_dec lvl g); [|lia]. subst lvl. rewrite skipn_all2 in Hr by lia. discriminate. }
    assert (Ht : t = nth lvl cov 0%nat /\ rest = skipn (S lvl) cov).
    { apply skipn_cons_inv. auto. }
    destruct Ht as [-> Hrest].
    cbn [nest_levels]. fold (lm lvl). fold (m1 lvl). rewrite in_app_iff.
    rewrite (IH (S lvl) (lm lvl) (m1 lvl) (nth lvl cov 0 - 1)%nat Hg Hrest Hlt (conj eq_refl (conj eq_refl eq_refl)) p c).
    assert (N : forall n, In n (unique (flat_map (nests_above (nth lvl cov 0 - 1)%nat (m1 lvl) (lm lvl)) (sa_codes sa))) <->
      exists a e, In a x /\ (e <= nth lvl cov 0 - 1)%nat /\ n = nest_code sizes lvl e a).
    { intros n. rewrite unique_in, in_flat_map. split.
      - intros (a & Ha & Hn). apply codes_in in Ha. apply above_code in Hn; auto. destruct Hn as (e & He & ->). eauto.
      - intros (a & e & Ha & He & ->). exists a. split; [apply codes_in; auto|]. apply above_code; eauto. }
    assert (F : In (p, c) (if Nat.eqb lvl 0 then map (fun n => (root, n)) (unique (flat_map (nests_above (nth lvl cov 0 - 1)%nat (m1 lvl) (lm lvl)) (sa_codes sa)))
        else flat_map (fun n => map (fun p => (p, n)) (nests_above pt p1 pm n)) (unique (flat_map (nests_above (nth lvl cov 0 - 1)%nat (m1 lvl) (lm lvl)) (sa_codes sa)))) <->
      exists a e, In a x /\ (e <= nth lvl cov 0 - 1)%nat /\ c = nest_code sizes lvl e a /\
        match lvl with O => p = root | S j => exists e', (e' <= nth j cov 0 - 1)%nat /\ p = nest_code sizes j e' a end).
    { destruct lvl as [|j]; cbn [Nat.eqb].
      - rewrite in_map_iff. split.
        + intros (n & E & Hn). injection E as <- <-. apply N in Hn. destruct Hn as (a & e & Ha & He & ->). exists a, e. auto.
        + intros (a & e & Ha & He & -> & ->). eexists. split; [reflexivity|]. apply N. eauto.
      - destruct Hprev as (-> & -> & ->). rewrite in_flat_map. split.
        + intros (n & Hn & Hin). apply N in Hn. destruct Hn as (a & e & Ha & He & ->). apply in_map_iff in Hin.
          destruct Hin as (q & E & Hq). injection E as <- <-. pose proof (Hpad (S j) Hlt). pose proof (Hpad j ltac:(lia)).
          apply above_nest in Hq; auto; try lia. exists a, e. auto.
        + intros (a & e & Ha & He & -> & Hp). exists (nest_code sizes (S j) e a). split; [apply N; eauto|].
          apply in_map_iff. exists p. split; [auto|]. pose proof (Hpad (S j) Hlt). pose proof (Hpad j ltac:(lia)).
          apply above_nest; auto; lia. }
    rewrite F. unfold is_edge. split.
    + intros [(a & e & Ha & He & -> & Hp)|[(a & k & e & Ha & Hk & R)|R]].
      * left. exists a, lvl, e. repeat split; auto; lia.
      * left. exists a, k, e. split; [auto|]. split; [lia|auto].
      * right. auto.
    + intros [(a & k & e & Ha & Hk & He & Hc & Hp)|R]; [|right; right; auto].
      destruct (Nat.eq_dec k lvl) as [->|].
      * left. exists a, e. auto.
      * right. left. exists a, k, e. split; [auto|]. split; [lia|auto].
Qed.
End Edges.

(** Nest codes as packed fields. *)
Lemma fits_firstn sizes v k : fits sizes v -> fits (firstn k sizes) (firstn k v).
Proof. intros H. revert k; induction H; intros [|k]; cbn; constructor; auto. Qed.
Lemma fits_skipn sizes v k : fits sizes v -> fits (skipn k sizes) (skipn k v).
Proof. intros H. revert k; induction H; intros [|k]; cbn; try constructor; auto. Qed.
Lemma fits_zeros sizes : fits sizes (repeat 0 (length sizes)).
Proof. induction sizes as [|b r IH]; cbn [length repeat]; constructor; auto. split; [lia|apply pow_pos]. Qed.
Lemma pack_zeros sizes : pack sizes (repeat 0 (length sizes)) = 0.
Proof. induction sizes as [|b r IH]; cbn [length repeat pack]; auto. Qed.
Definition prefix_fields (sizes : list nat) (k : nat) (v : list Z) : list Z :=
  firstn (S k) v ++ repeat 0 (length sizes - S k).
Lemma prefix_fits sizes v k : fits sizes v -> fits sizes (prefix_fields sizes k v).
Proof.
  intros H. unfold prefix_fields. rewrite <- (firstn_skipn (S k) sizes) at 1. apply fits_app; [apply fits_firstn; auto|].
  rewrite <- skipn_length. apply fits_zeros.
Qed.
Lemma nest_pack sizes v k : fits sizes v -> nest_code sizes k 0 (pack sizes v) = pack sizes (prefix_fields sizes k v).
Proof.
  intros H. unfold nest_code, prefix_fields. rewrite Z.add_0_r.
  assert (L1 : length (firstn (S k) sizes) = length (firstn (S k) v)).
  { rewrite !firstn_length, (fits_length _ _ H). auto. }
  assert (E1 : pack sizes v = pack (firstn (S k) sizes) (firstn (S k) v) * 2 ^ Z.of_nat (after k sizes) + pack (skipn (S k) sizes) (skipn (S k) v)).
  { rewrite <- (firstn_skipn (S k) sizes) at 1. rewrite <- (firstn_skipn (S k) v) at 1. apply pack_app. auto. }
  assert (E2 : pack sizes (firstn (S k) v ++ repeat 0 (length sizes - S k)) = pack (firstn (S k) sizes) (firstn (S k) v) * 2 ^ Z.of_nat (after k sizes)).
  { rewrite <- (firstn_skipn (S k) sizes) at 1. rewrite pack_app by auto. rewrite <- skipn_length, pack_zeros. unfold after. ring. }
  rewrite E2, E1. pose proof (pack_bound _ _ (fits_skipn _ _ (S k) H)) as B. fold (after k sizes) in B.
  pose proof (pow_pos (after k sizes)). rewrite Z.div_add_l by lia. rewrite (Z.div_small (pack (skipn (S k) sizes) _)) by exact B. ring.
Qed.
Lemma prefix_nth sizes v k i : length v = length sizes -> nth i (prefix_fields sizes k v) 0 = if Nat.leb i k then nth i v 0 else 0.
Proof.
  intros Hl. unfold prefix_fields. destruct (Nat.leb_spec i k).
  - destruct (le_lt_dec (length v) i).
    + rewrite (nth_overflow v) by auto. rewrite app_nth2 by (rewrite firstn_length; lia). apply nth_repeat.
    + rewrite app_nth1 by (rewrite firstn_length; lia). rewrite <- (firstn_skipn (S k) v) at 2. rewrite app_nth1 by (rewrite firstn_length; lia). auto.
  - destruct (le_lt_dec (length v) (S k)).
    + rewrite app_nth2 by (rewrite firstn_length; lia). apply nth_repeat.
    + rewrite app_nth2 by (rewrite firstn_length; lia). apply nth_repeat.
Qed.

Section Nests.
Variables (complete : list (option (list Z))) (padding : nat) (rows : list row) (x : list Z) (sa : sysalts).
Hypothesis Hnew : new_alternative_codes complete padding rows = Some (x, sa).
Hypothesis Hbits : (bits_needed complete padding rows <= 62)%nat.
Hypothesis Hpow : no_power_of_two rows.
Hypothesis Hrows : rows_ok complete rows.
Local Notation sizes := (field_sizes complete padding rows).
Let g := length complete.
Lemma nest_inj a b k : In a x -> In b x -> (k < g)%nat -> nest_code sizes k 0 a = nest_code sizes k 0 b ->
  forall j, (j <= k)%nat -> nest_code sizes j 0 a = nest_code sizes j 0 b.
Proof.
  intros Ha Hb Hk E j Hj.
  destruct (code_room _ _ _ _ _ Hnew Hbits Hpow a k 0 Ha Hk ltac:(lia)) as (v & Hf & -> & _).
  destruct (code_room _ _ _ _ _ Hnew Hbits Hpow b k 0 Hb Hk ltac:(lia)) as (w & Hw & -> & _).
  rewrite !nest_pack in * by auto. f_equal.
  apply pack_inj in E; try apply prefix_fits; auto.
  assert (N : forall i, (i <= k)%nat -> nth i v 0 = nth i w 0).
  { intros i Hi. apply (f_equal (fun l => nth i l 0)) in E. rewrite !prefix_nth in E by (eapply fits_length; eauto).
    destruct (Nat.leb_spec i k); [auto|lia]. }
  apply (nth_ext _ _ 0 0).
  - unfold prefix_fields. rewrite !app_length, !firstn_length, (fits_length _ _ Hf), (fits_length _ _ Hw). auto.
  - intros i _. rewrite !prefix_nth by (eapply fits_length; eauto). destruct (Nat.leb_spec i j); [apply N; lia|auto].
Qed.
Lemma nest_level_inj a b k j : In a x -> In b x -> (k < g)%nat -> (j < g)%nat ->
  nest_code sizes k 0 a = nest_code sizes j 0 b -> k = j.
Proof.
  intros Ha Hb Hk Hj E.
  destruct (code_room _ _ _ _ _ Hnew Hbits Hpow a k 0 Ha Hk ltac:(lia)) as (v & Hf & -> & V1 & _).
  destruct (code_room _ _ _ _ _ Hnew Hbits Hpow b j 0 Hb Hj ltac:(lia)) as (w & Hw & -> & W1 & _).
  rewrite !nest_pack in E by auto. apply pack_inj in E; try apply prefix_fits; auto.
  pose proof (f_equal (fun l => nth k l 0) E) as Ek. pose proof (f_equal (fun l => nth j l 0) E) as Ej. cbv beta in Ek, Ej.
  rewrite !prefix_nth in Ek, Ej by (eapply fits_length; eauto).
  destruct (Nat.leb_spec k k); [|lia]. destruct (Nat.leb_spec j j); [|lia].
  destruct (Nat.leb_spec k j); destruct (Nat.leb_spec j k); lia.
Qed.
Lemma nest_not_code a b k : In a x -> In b x -> (k < g)%nat -> nest_code sizes k 0 a <> b.
Proof.
  intros Ha Hb Hk E.
  destruct (code_room _ _ _ _ _ Hnew Hbits Hpow a k 0 Ha Hk ltac:(lia)) as (v & Hf & -> & _).
  destruct (code_room _ _ _ _ _ Hnew Hbits Hpow b k 0 Hb Hk ltac:(lia)) as (w & Hw & -> & _ & _ & W1).
  rewrite nest_pack in E by auto. apply pack_inj in E; try apply prefix_fits; auto.
  apply (f_equal (fun l => nth g l 0)) in E. rewrite prefix_nth in E by (eapply fits_length; eauto).
  unfold g in *. destruct (Nat.leb_spec (length complete) k); lia.
Qed.
Lemma nest_cats i j k : (i < length rows)%nat -> (j < length rows)%nat -> (k < g)%nat ->
  nest_code sizes k 0 (nth i x 0) = nest_code sizes k 0 (nth j x 0) <->
  firstn (S k) (r_cats (nth i rows (mkRow 0 []))) = firstn (S k) (r_cats (nth j rows (mkRow 0 []))).
Proof.
  intros Hi Hj Hk.
  destruct (code_fields _ _ _ _ _ _ Hnew Hbits Hi (ordinal_lt_pow _ _ Hi Hpow)) as (di & Hdi & Hfi & ->).
  destruct (code_fields _ _ _ _ _ _ Hnew Hbits Hj (ordinal_lt_pow _ _ Hj Hpow)) as (dj & Hdj & Hfj & ->).
  rewrite !nest_pack by auto.
  destruct (digits_spec _ _ _ Hdi) as (Li & _ & Ki). destruct (digits_spec _ _ _ Hdj) as (Lj & _ & Kj).
  rewrite level_lists_length in Li, Lj, Ki, Kj. fold g in Li, Lj, Ki, Kj.
  assert (Ci : length (r_cats (nth i rows (mkRow 0 []))) = g).
  { eapply Forall_forall in Hrows; [exact Hrows|]. now apply nth_In. }
  assert (Cj : length (r_cats (nth j rows (mkRow 0 []))) = g).
  { eapply Forall_forall in Hrows; [exact Hrows|]. now apply nth_In. }
  assert (Nf : forall (A : Type) (l : list A) d m n, (m < n)%nat -> nth m (firstn n l) d = nth m l d).
  { clear. intros A l d m n H. revert m n H; induction l as [|a l IH]; intros m n H; [destruct n, m; reflexivity|].
    destruct n; [lia|]. destruct m; [reflexivity|]. cbn. apply IH. lia. }
  assert (Nv : forall ds o m, length ds = g -> (m <= k)%nat -> nth m (vals ds ++ [o]) 0 = Z.of_nat (nth m ds 0%nat) + 1).
  { intros ds o m Hl Hm. rewrite app_nth1 by (unfold vals; rewrite map_length; lia).
    unfold vals. rewrite (nth_indep _ 0 (Z.of_nat 0 + 1)) by (rewrite map_length; lia). apply (map_nth (fun d => Z.of_nat d + 1)). }
  split.
  - intros E. apply pack_inj in E; try apply prefix_fits; auto.
    apply (nth_ext _ _ 0 0); [rewrite !firstn_length; lia|]. intros m Hm. rewrite firstn_length in Hm.
    rewrite !Nf by lia. rewrite <- (proj2 (Ki m ltac:(lia))), <- (proj2 (Kj m ltac:(lia))). f_equal.
    apply (f_equal (fun l => nth m l 0)) in E. rewrite !prefix_nth in E by (eapply fits_length; eauto).
    destruct (Nat.leb_spec m k); [|lia]. rewrite !Nv in E by auto. lia.
  - intros E. f_equal. apply (nth_ext _ _ 0 0).
    + unfold prefix_fields. rewrite !app_length, !firstn_length, (fits_length _ _ Hfi), (fits_length _ _ Hfj). auto.
    + intros m _. rewrite !prefix_nth by (eapply fits_length; eauto). destruct (Nat.leb_spec m k); [|auto].
      rewrite !Nv by auto.
      assert (Em : nth m (r_cats (nth i rows (mkRow 0 []))) 0 = nth m (r_cats (nth j rows (mkRow 0 []))) 0).
      { apply (f_equal (fun l => nth m l 0)) in E. rewrite !Nf in E by lia. auto. }
      assert (Dm : forall alts cats ds, digits_of alts cats = Some ds -> (m < length alts)%nat -> index_of (nth m cats 0) (nth m alts []) = Some (nth m ds 0%nat)).
      { clear. induction m as [|m IH]; intros alts cats ds H Hl; destruct alts as [|a alts]; try (simpl in Hl; lia);
        destruct cats as [|c cats]; try discriminate; cbn [digits_of] in H;
        destruct (index_of c a) as [d|] eqn:Ea; try discriminate; destruct (digits_of alts cats) as [r|] eqn:Er; try discriminate; injection H as <-.
        - exact Ea.
        - cbn [nth]. apply IH; auto. simpl in Hl. lia. }
      pose proof (Dm _ _ _ Hdi ltac:(rewrite level_lists_length; fold g; lia)) as D1.
      pose proof (Dm _ _ _ Hdj ltac:(rewrite level_lists_length; fold g; lia)) as D2.
      rewrite Em in D1. congruence.
Qed.
(** The name of a nest: the categories of its levels, and no more. *)
Lemma nest_name i k : (i < length rows)%nat -> (k < g)%nat ->
  alternative_name sa (nest_code sizes k 0 (nth i x 0)) =
  (map Cat (firstn (S k) (r_cats (nth i rows (mkRow 0 [])))) ++ repeat NoCat (g - S k), 0).
Proof.
  intros Hi Hk.
  destruct (code_fields _ _ _ _ _ _ Hnew Hbits Hi (ordinal_lt_pow _ _ Hi Hpow)) as (ds & Hd & Hf & ->).
  rewrite nest_pack by auto. pose proof (prefix_fits _ _ k Hf) as Hpf.
  destruct (digits_spec _ _ _ Hd) as (Hl & _ & Kd). rewrite level_lists_length in Hl, Kd. fold g in Hl, Kd.
  assert (Ci : length (r_cats (nth i rows (mkRow 0 []))) = g).
  { eapply Forall_forall in Hrows; [exact Hrows|]. now apply nth_In. }
  rewrite (surjective_pairing (alternative_name _ _)). f_equal.
  - apply (nth_ext _ _ NoCat NoCat).
    + rewrite (name_length _ _ _ _ _ _ Hnew Hbits). rewrite app_length, map_length, firstn_length, repeat_length. fold g. lia.
    + rewrite (name_length _ _ _ _ _ _ Hnew Hbits). fold g. intros m Hm.
      rewrite (name_fields _ _ _ _ _ _ _ Hnew Hbits Hpf Hm).
      rewrite prefix_nth by (apply (fits_length _ _ Hf)). destruct (Nat.leb_spec m k).
      * rewrite app_nth1 by (unfold vals; rewrite map_length; lia).
        unfold vals. rewrite (nth_indep _ 0 (Z.of_nat 0 + 1)) by (rewrite map_length; lia).
        rewrite (map_nth (fun d => Z.of_nat d + 1)). destruct (Kd m Hm) as [K1 K2]. rewrite name_cat by auto.
        rewrite app_nth1 by (rewrite map_length, firstn_length; lia).
        rewrite (nth_indep _ NoCat (Cat 0)) by (rewrite map_length, firstn_length; lia). rewrite map_nth. rewrite K2. f_equal.
        rewrite <- (firstn_skipn (S k) (r_cats _)) at 1. rewrite app_nth1 by (rewrite firstn_length; lia). auto.
      * rewrite app_nth2 by (rewrite map_length, firstn_length; lia). rewrite nth_repeat. reflexivity.
  - rewrite (name_last _ _ _ _ _ _ Hnew Hbits Hpf).
    unfold prefix_fields. rewrite (g_sizes complete padding rows) by auto. fold g.
    replace (S g - S k)%nat with (S (g - S k)) by lia.
    replace (repeat 0 (S (g - S k))) with (repeat 0 (g - S k) ++ [0]) by (generalize (g - S k)%nat as n; clear; induction n as [|n IH]; [reflexivity|cbn [repeat app]; rewrite IH; reflexivity]).
    rewrite app_assoc. apply last_last.
Qed.
End Nests.
