(** Proofs about masks and fields. *)
From Verif Require Import BitsModel BitsSpec.
From Coq Require Import ZifyBool ZifyNat.
Open Scope Z_scope.

Lemma pow_pos n : 0 < 2 ^ Z.of_nat n. Proof. apply Z.pow_pos_nonneg; lia. Qed.
#[global] Hint Resolve pow_pos : core.
Lemma pow_add a b : 2 ^ Z.of_nat (a + b) = 2 ^ Z.of_nat a * 2 ^ Z.of_nat b.
Proof. rewrite Nat2Z.inj_add, Z.pow_add_r; lia. Qed.
Lemma pow_le a b : (a <= b)%nat -> 2 ^ Z.of_nat a <= 2 ^ Z.of_nat b.
Proof. intros. apply Z.pow_le_mono_r; lia. Qed.

Lemma wrap_id x : 0 <= x < 2 ^ 63 -> wrap64 x = x.
Proof.
  intros H. unfold wrap64. rewrite Z.mod_small; [lia|].
  change (2 ^ 64) with (2 ^ 63 + 2 ^ 63). lia.
Qed.
Lemma shl_id x b n : 0 <= x <= 2 ^ Z.of_nat b - 1 -> (b + n <= 63)%nat -> shl64 x n = x * 2 ^ Z.of_nat n.
Proof.
  intros H Hn. unfold shl64. destruct (Nat.ltb_spec n 64); [|lia].
  apply wrap_id. split; [pose proof (pow_pos n); nia|].
  apply Z.lt_le_trans with (2 ^ Z.of_nat b * 2 ^ Z.of_nat n).
  - pose proof (pow_pos n). nia.
  - rewrite <- pow_add. change 63 with (Z.of_nat 63). apply pow_le. lia.
Qed.

Lemma total_cons b r : total (b :: r) = (b + total r)%nat. Proof. reflexivity. Qed.
Lemma total_app a b : total (a ++ b) = (total a + total b)%nat.
Proof. unfold total. apply list_sum_app. Qed.
Lemma tail_sums_head r : match tail_sums r with s :: _ => s | [] => 0%nat end = total r.
Proof. induction r as [|b r IH]; [reflexivity|]. simpl. rewrite IH. reflexivity. Qed.
Lemma shifts_cons b c r : shifts (b :: c :: r) = total (c :: r) :: shifts (c :: r).
Proof. unfold shifts. cbn [tail_sums tl]. rewrite tail_sums_head. reflexivity. Qed.

Fixpoint ideal (sizes : list nat) : list Z :=
  match sizes with [] => [] | b :: r => (2 ^ Z.of_nat b - 1) * 2 ^ Z.of_nat (total r) :: ideal r end.
Lemma define_masks_ideal sizes : sizes <> [] -> (total sizes <= 63)%nat -> define_masks sizes = Some (ideal sizes).
Proof.
  intros N Ht. unfold define_masks. destruct sizes as [|b r]; [contradiction|]. f_equal.
  clear N. revert b Ht; induction r as [|c r IH]; intros b Ht.
  - cbn [shifts tail_sums tl app combine map ideal fst snd]. unfold total in *. simpl in *.
    f_equal. apply (shl_id _ b); [pose proof (pow_pos b); lia|lia].
  - rewrite shifts_cons. cbn [combine map fst snd ideal]. rewrite total_cons in Ht. f_equal.
    + apply (shl_id _ b); [pose proof (pow_pos b); lia|lia].
    + apply IH. lia.
Qed.
Lemma ideal_length sizes : length (ideal sizes) = length sizes.
Proof. induction sizes; simpl; auto. Qed.
Lemma ideal_nth sizes k : (k < length sizes)%nat ->
  nth k (ideal sizes) 0 = (2 ^ Z.of_nat (nth k sizes 0%nat) - 1) * 2 ^ Z.of_nat (after k sizes).
Proof.
  revert k; induction sizes as [|b r IH]; intros k Hk; [simpl in Hk; lia|].
  destruct k as [|k]; [reflexivity|]. cbn [ideal nth]. rewrite IH by (simpl in Hk; lia). reflexivity.
Qed.
Lemma mask_bit b s i : 0 <= i ->
  Z.testbit ((2 ^ Z.of_nat b - 1) * 2 ^ Z.of_nat s) i = (Z.of_nat s <=? i) && (i <? Z.of_nat s + Z.of_nat b).
Proof.
  intros Hi. rewrite Z.mul_pow2_bits by lia.
  replace (2 ^ Z.of_nat b - 1) with (Z.ones (Z.of_nat b)) by (rewrite Z.ones_equiv; lia).
  destruct (Z.leb_spec (Z.of_nat s) i).
  - rewrite Z.testbit_ones_nonneg by lia. cbn [andb]. lia.
  - rewrite Z.testbit_neg_r by lia. reflexivity.
Qed.

(** Trailing zeros. *)
Lemma shift_value_double z : 0 < z -> bitmask_shift_value (2 * z) = S (bitmask_shift_value z).
Proof. destruct z; try lia. intros _. reflexivity. Qed.
Lemma shift_value_odd z : 0 < z -> Z.odd z = true -> bitmask_shift_value z = 0%nat.
Proof. destruct z; try lia. intros _. destruct p; simpl; congruence. Qed.
Lemma shift_value_mul z s : 0 < z -> Z.odd z = true -> bitmask_shift_value (z * 2 ^ Z.of_nat s) = s.
Proof.
  intros Hz Ho. induction s as [|s IH].
  - rewrite Z.mul_1_r. now apply shift_value_odd.
  - replace (z * 2 ^ Z.of_nat (S s)) with (2 * (z * 2 ^ Z.of_nat s)).
    + rewrite shift_value_double; [now rewrite IH|]. pose proof (pow_pos s). nia.
    + rewrite Nat2Z.inj_succ, Z.pow_succ_r by lia. ring.
Qed.
Lemma odd_ones b : (0 < b)%nat -> 0 < 2 ^ Z.of_nat b - 1 /\ Z.odd (2 ^ Z.of_nat b - 1) = true.
Proof.
  intros H. destruct b as [|b]; [lia|]. rewrite Nat2Z.inj_succ, Z.pow_succ_r by lia. pose proof (pow_pos b).
  split; [lia|]. replace (2 * 2 ^ Z.of_nat b - 1) with (1 + 2 * (2 ^ Z.of_nat b - 1)) by ring.
  now rewrite Z.odd_add_mul_2.
Qed.
Lemma field_eq b s x : 0 <= x -> field ((2 ^ Z.of_nat b - 1) * 2 ^ Z.of_nat s) x = (x / 2 ^ Z.of_nat s) mod 2 ^ Z.of_nat b.
Proof.
  intros Hx. unfold field. destruct (Nat.eq_dec b 0) as [->|Hb].
  - rewrite Z.mul_0_l, Z.land_0_l. simpl (bitmask_shift_value 0). rewrite Z.mod_1_r. reflexivity.
  - destruct (odd_ones b ltac:(lia)) as [Hp Ho]. rewrite shift_value_mul by auto.
    rewrite Z.shiftr_land. rewrite !Z.shiftr_div_pow2 by lia.
    rewrite Z.div_mul by (pose proof (pow_pos s); lia).
    replace (2 ^ Z.of_nat b - 1) with (Z.ones (Z.of_nat b)) by (rewrite Z.ones_equiv; lia).
    rewrite Z.land_comm, Z.land_ones by lia. reflexivity.
Qed.

(** Packing. *)
Lemma pack_bound sizes values : fits sizes values -> 0 <= pack sizes values < 2 ^ Z.of_nat (total sizes).
Proof.
  induction 1 as [|b v sizes values Hv Hf IH]; [simpl; lia|].
  cbn [pack]. rewrite total_cons, pow_add. pose proof (pow_pos (total sizes)). nia.
Qed.
Lemma pack_field sizes values k : fits sizes values -> (k < length sizes)%nat ->
  (pack sizes values / 2 ^ Z.of_nat (after k sizes)) mod 2 ^ Z.of_nat (nth k sizes 0%nat) = nth k values 0.
Proof.
  intros H. revert k; induction H as [|b v sizes values Hv Hf IH]; intros k Hk; [simpl in Hk; lia|].
  pose proof (pack_bound _ _ Hf) as B. pose proof (pow_pos (total sizes)) as Pt.
  destruct k as [|k].
  - cbn [pack nth]. unfold after. cbn [skipn].
    rewrite Z.div_add_l by lia. rewrite (Z.div_small (pack sizes values)) by lia. rewrite Z.add_0_r. apply Z.mod_small. lia.
  - cbn [nth]. rewrite <- (IH k) by (simpl in Hk; lia). unfold after. cbn [skipn pack].
    assert (Ht : total sizes = (total (firstn k sizes) + (nth k sizes 0 + total (skipn (S k) sizes)))%nat).
    { rewrite <- (firstn_skipn k sizes) at 1. rewrite total_app. f_equal.
      clear -Hk. simpl in Hk. assert (k < length sizes)%nat by lia. clear Hk. revert k H; induction sizes as [|c r IH]; intros k H; [simpl in H; lia|].
      destruct k as [|k]; [reflexivity|]. cbn [skipn nth]. apply IH. simpl in H. lia. }
    rewrite Ht, !pow_add.
    rewrite (Z.mul_comm (2 ^ Z.of_nat (nth k sizes 0%nat))), !Z.mul_assoc.
    pose proof (pow_pos (total (skipn (S k) sizes))) as Ps. pose proof (pow_pos (nth k sizes 0%nat)) as Pn.
    replace (v * 2 ^ Z.of_nat (total (firstn k sizes)) * 2 ^ Z.of_nat (total (skipn (S k) sizes)) * 2 ^ Z.of_nat (nth k sizes 0%nat))
      with ((v * 2 ^ Z.of_nat (total (firstn k sizes)) * 2 ^ Z.of_nat (nth k sizes 0%nat)) * 2 ^ Z.of_nat (total (skipn (S k) sizes))) by ring.
    rewrite Z.div_add_l by lia. rewrite Z.add_comm, Z.mod_add by lia. reflexivity.
Qed.
Lemma fits_nth sizes values k : fits sizes values -> (k < length sizes)%nat -> 0 <= nth k values 0 < 2 ^ Z.of_nat (nth k sizes 0%nat).
Proof.
  intros H. revert k; induction H as [|b v sizes values Hv Hf IH]; intros k Hk; [simpl in Hk; lia|].
  destruct k; [exact Hv|]. apply IH. simpl in Hk. lia.
Qed.
Lemma fits_length sizes values : fits sizes values -> length values = length sizes.
Proof. induction 1; simpl; auto. Qed.
Lemma fits_app s1 v1 s2 v2 : fits s1 v1 -> fits s2 v2 -> fits (s1 ++ s2) (v1 ++ v2).
Proof. induction 1; simpl; auto. intros. constructor; auto. Qed.
Lemma pack_app s1 v1 s2 v2 : length s1 = length v1 -> pack (s1 ++ s2) (v1 ++ v2) = pack s1 v1 * 2 ^ Z.of_nat (total s2) + pack s2 v2.
Proof.
  revert v1; induction s1 as [|b s1 IH]; intros [|v v1] H; try discriminate; [simpl; ring|].
  cbn [app pack]. rewrite IH by (simpl in H; lia). rewrite total_app, pow_add. ring.
Qed.
Lemma pack_inj sizes v w : fits sizes v -> fits sizes w -> pack sizes v = pack sizes w -> v = w.
Proof.
  intros Hv Hw E. apply (nth_ext _ _ 0 0); [rewrite (fits_length _ _ Hv), (fits_length _ _ Hw); auto|].
  intros k Hk. rewrite (fits_length _ _ Hv) in Hk.
  rewrite <- (pack_field _ _ _ Hv Hk), <- (pack_field _ _ _ Hw Hk). now rewrite E.
Qed.

(** The masks of systematic alternatives. *)
Lemma set_nth_app {A} (p : list A) x q v : set_nth (length p) v (p ++ x :: q) = p ++ v :: q.
Proof.
  unfold set_nth. rewrite firstn_app, Nat.sub_diag, firstn_all. cbn [firstn]. rewrite app_nil_r. f_equal. f_equal.
  rewrite skipn_app. replace (S (length p) - length p)%nat with 1%nat by lia. rewrite skipn_all2 by lia. reflexivity.
Qed.
Lemma shl_zero n : shl64 0 n = 0.
Proof. unfold shl64. destruct (Nat.ltb n 64); [apply wrap_id; lia|reflexivity]. Qed.
Lemma map_shl_zeros n k : map (fun m => shl64 m n) (repeat 0 k) = repeat 0 k.
Proof. induction k; simpl; auto. rewrite shl_zero. now f_equal. Qed.
Definition below (t : nat) (l : list Z) : Prop := Forall (fun m => 0 <= m <= 2 ^ Z.of_nat t - 1) l.
Lemma map_shl t n l : below t l -> (t + n <= 63)%nat -> map (fun m => shl64 m n) l = map (fun m => m * 2 ^ Z.of_nat n) l.
Proof. induction 1; intros; simpl; auto. rewrite (shl_id _ t) by auto. f_equal; auto. Qed.
Lemma below_mul t n l : below t l -> below (t + n) (map (fun m => m * 2 ^ Z.of_nat n) l).
Proof.
  induction 1; constructor; auto. rewrite pow_add. pose proof (pow_pos t). pose proof (pow_pos n). nia.
Qed.
Lemma below_le t u l : (t <= u)%nat -> below t l -> below u l.
Proof. intros Htu. induction 1; constructor; auto. pose proof (pow_le _ _ Htu). lia. Qed.
Lemma mask_loop_eq sizes : forall t pre k, below t pre -> (t + total sizes <= 63)%nat ->
  mask_loop (length pre) sizes (pre ++ repeat 0 (length sizes + k)) =
  map (fun m => m * 2 ^ Z.of_nat (total sizes)) pre ++ ideal sizes ++ repeat 0 k.
Proof.
  induction sizes as [|b r IH]; intros t pre k Hb Ht.
  - cbn [mask_loop ideal app length]. unfold total. simpl. f_equal. rewrite <- (map_id pre) at 1. apply map_ext. intros; ring.
  - rewrite total_cons in *. cbn [mask_loop]. rewrite map_app. cbn [length plus repeat map].
    rewrite map_shl_zeros, shl_zero.
    rewrite (map_shl t b pre Hb) by lia.
    replace (length pre) with (length (map (fun m => m * 2 ^ Z.of_nat b) pre)) at 2 by apply map_length.
    rewrite set_nth_app.
    assert (HB : below (t + b) (map (fun m => m * 2 ^ Z.of_nat b) pre ++ [2 ^ Z.of_nat b - 1])).
    { apply Forall_app. split; [apply below_mul; auto|]. constructor; [|constructor].
      pose proof (pow_pos b). pose proof (pow_le b (t + b) ltac:(lia)). lia. }
    specialize (IH (t + b)%nat _ k HB ltac:(lia)). rewrite app_length, map_length in IH. cbn [length] in IH.
    replace (length pre + 1)%nat with (S (length pre)) in IH by lia.
    rewrite <- app_assoc in IH. cbn [app] in IH. rewrite IH. rewrite map_app, map_map. cbn [map].
    rewrite <- app_assoc. cbn [app ideal]. f_equal. apply map_ext. intros m. rewrite pow_add. ring.
Qed.
Lemma ideal_below sizes : below (total sizes) (ideal sizes).
Proof.
  induction sizes as [|b r IH]; [constructor|]. cbn [ideal]. rewrite total_cons. constructor.
  - rewrite pow_add. pose proof (pow_pos b). pose proof (pow_pos (total r)). nia.
  - eapply below_le; [|exact IH]. lia.
Qed.
Lemma ideal_snoc sizes lo : ideal (sizes ++ [lo]) = map (fun m => m * 2 ^ Z.of_nat lo) (ideal sizes) ++ [2 ^ Z.of_nat lo - 1].
Proof.
  induction sizes as [|b r IH]; [cbn; f_equal; unfold total; simpl; ring|].
  cbn [app ideal map]. rewrite IH. f_equal. rewrite total_app, pow_add. unfold total at 2. cbn [list_sum fold_right].
  rewrite Nat.add_0_r. ring.
Qed.
Lemma sa_masks_eq sizes lo : (total sizes + lo <= 63)%nat -> sa_masks sizes lo = ideal (sizes ++ [lo]).
Proof.
  intros H. unfold sa_masks. rewrite ideal_snoc.
  assert (E : match sizes with
              | [] => repeat 0 (S (length sizes))
              | b :: r => mask_loop 1 r (set_nth 0 (2 ^ Z.of_nat b - 1) (repeat 0 (S (length sizes))))
              end = ideal sizes ++ [0]).
  { destruct sizes as [|b r]; [reflexivity|].
    cbn [length repeat]. change (set_nth 0 (2 ^ Z.of_nat b - 1) (0 :: 0 :: repeat 0 (length r)))
      with ([2 ^ Z.of_nat b - 1] ++ 0 :: repeat 0 (length r)).
    change (0 :: repeat 0 (length r)) with (repeat 0 (S (length r))).
    replace (S (length r)) with (length r + 1)%nat by lia.
    pose proof (mask_loop_eq r b [2 ^ Z.of_nat b - 1] 1) as M. cbn [length] in M. rewrite M.
    - reflexivity.
    - constructor; [|constructor]. pose proof (pow_pos b). lia.
    - rewrite total_cons in H. lia. }
  rewrite E. rewrite map_app. cbn [map]. rewrite shl_zero.
  rewrite (map_shl (total sizes) lo _ (ideal_below sizes)) by lia.
  rewrite <- (ideal_length sizes) at 1. rewrite <- (map_length (fun m => m * 2 ^ Z.of_nat lo) (ideal sizes)).
  apply set_nth_app.
Qed.
