(** Proofs about piecewise linear expansion. *)
From Verif Require Import PieceModel PieceSpec.
Open Scope R_scope.

(** Innermost comparisons first. *)
Ltac rcases :=
  repeat match goal with
  | |- context [Rle_dec ?a ?b] =>
    lazymatch a with
    | context [Rle_dec _ _] => fail
    | _ => lazymatch b with context [Rle_dec _ _] => fail | _ => destruct (Rle_dec a b) end
    end
  end.

Fixpoint mid (b : R) (r : list R) : list leg :=
  match r with
  | [] => [(Some b, None)]
  | c :: r => (Some b, Some c) :: mid c r
  end.
Lemma mid_eq b r :
  map (fun i => (Some (nth i (b :: r) 0), Some (nth (i + 1) (b :: r) 0))) (seq 0 (length r))
  ++ [(Some (nth (length r) (b :: r) 0), None)] = mid b r.
Proof.
  revert b; induction r as [|c r IH]; intros b; [reflexivity|].
  cbn [length seq map app mid]. f_equal. rewrite <- IH. rewrite <- seq_shift, map_map.
  f_equal. 
Qed.
Lemma legs_cons b r : legs (b :: r) = Some ((None, Some b) :: mid b r).
Proof.
  unfold legs. cbn [length]. replace (S (length r) - 1)%nat with (length r) by lia.
  now rewrite mid_eq.
Qed.
Lemma increasing_tl b r : increasing (b :: r) -> increasing r.
Proof. intros H i j Hij Hj. apply (H (S i) (S j)); simpl; lia. Qed.
Lemma increasing_head b c r : increasing (b :: c :: r) -> b <= c.
Proof. intros H. apply (H 0 1)%nat; simpl; lia. Qed.

Lemma mid_sum x b r : increasing (b :: r) -> rsum (map (piece x) (mid b r)) = Rmax (x - b) 0.
Proof.
  revert b; induction r as [|c r IH]; intros b H.
  - simpl. ring.
  - cbn [mid map rsum fold_right]. fold (rsum (map (piece x) (mid c r))). rewrite IH by (eapply increasing_tl; eauto).
    pose proof (increasing_head _ _ _ H). unfold piece, clip, Rmin, Rmax.
    rcases; lra.
Qed.
Lemma legs_sum x breaks l : increasing breaks -> legs breaks = Some l -> rsum (map (piece x) l) = x.
Proof.
  destruct breaks as [|b r]; [discriminate|]. intros H. rewrite legs_cons. intros E; injection E as <-.
  cbn [map rsum fold_right]. fold (rsum (map (piece x) (mid b r))). rewrite mid_sum by auto.
  simpl. unfold Rmin, Rmax. rcases; lra.
Qed.

(** Legs by number. *)
Lemma legs_nth breaks l k : legs breaks = Some l -> (k < length l)%nat ->
  nth k l (None, None) =
  (match k with O => None | S j => Some (nth j breaks 0) end,
   if Nat.ltb k (length breaks) then Some (nth k breaks 0) else None).
Proof.
  destruct breaks as [|b r]; [discriminate|]. rewrite legs_cons. intros E; injection E as <-.
  destruct k as [|k]; [reflexivity|]. cbn [length nth]. intros Hk.
  assert (Hk' : (k < length (mid b r))%nat) by lia. clear Hk.
  revert b k Hk'; induction r as [|c r IH]; intros b k Hk'.
  - simpl in *. assert (k = 0)%nat by lia. now subst.
  - destruct k as [|k]; [reflexivity|]. cbn [mid nth length] in *. rewrite IH by lia.
    reflexivity.
Qed.
Lemma legs_length breaks l : legs breaks = Some l -> length l = S (length breaks).
Proof.
  destruct breaks as [|b r]; [discriminate|]. rewrite legs_cons. intros E; injection E as <-.
  cbn [length]. f_equal. revert b; induction r as [|c r IH]; intros b; [reflexivity|]. cbn [mid length]. now rewrite IH.
Qed.

Lemma legs_within breaks l x k : increasing breaks -> legs breaks = Some l -> (k < length l)%nat ->
  match nth k l (None, None) with
  | (None, Some hi) => piece x (None, Some hi) <= hi
  | (Some lo, Some hi) => 0 <= piece x (Some lo, Some hi) <= hi - lo
  | (Some lo, None) => 0 <= piece x (Some lo, None)
  | (None, None) => False
  end.
Proof.
  intros H E Hk. pose proof (legs_length _ _ E) as Hl. rewrite (legs_nth _ _ _ E Hk).
  destruct k as [|j].
  - destruct breaks as [|b r]; [discriminate|]. simpl. apply Rmin_r.
  - destruct (Nat.ltb_spec (S j) (length breaks)).
    + assert (nth j breaks 0 <= nth (S j) breaks 0) by (apply H; lia).
      unfold piece, clip, Rmin, Rmax. rcases; lra.
    + simpl. apply Rmax_r.
Qed.
Lemma legs_consecutive breaks l x i j : increasing breaks -> legs breaks = Some l ->
  (i < j < length l)%nat -> 0 < piece x (nth j l (None, None)) ->
  full (nth i l (None, None)) (piece x (nth i l (None, None))).
Proof.
  intros H E [Hij Hj] Hp. pose proof (legs_length _ _ E) as Hl.
  rewrite (legs_nth _ _ _ E Hj) in Hp. rewrite (legs_nth _ _ i E) by lia.
  destruct j as [|j]; [lia|].
  assert (Hx : nth j breaks 0 < x).
  { revert Hp. destruct (Nat.ltb_spec (S j) (length breaks)).
    - assert (nth j breaks 0 <= nth (S j) breaks 0) by (apply H; lia).
      unfold piece, clip, Rmin, Rmax. rcases; lra.
    - simpl. unfold Rmax. destruct (Rle_dec _ _); lra. }
  assert (Hi : nth i breaks 0 <= nth j breaks 0) by (apply H; lia).
  destruct (Nat.ltb_spec i (length breaks)); [|lia]. destruct i as [|i].
  - simpl. unfold Rmin. destruct (Rle_dec _ _); lra.
  - assert (nth i breaks 0 <= nth (S i) breaks 0) by (apply H; lia).
    unfold full, piece, clip, Rmin, Rmax. rcases; lra.
Qed.

(** Differences within one segment. *)
Lemma legs_diff breaks l k x y i : legs breaks = Some l -> increasing breaks ->
  in_segment breaks k x -> in_segment breaks k y -> (i < length l)%nat ->
  piece y (nth i l (None, None)) - piece x (nth i l (None, None)) = if Nat.eqb i k then y - x else 0.
Proof.
  intros E H (Hk & Lx & Ux) (_ & Ly & Uy) Hi. pose proof (legs_length _ _ E) as Hl.
  rewrite (legs_nth _ _ _ E Hi).
  assert (B : forall m, (m < length breaks)%nat ->
    if Nat.ltb m k then nth m breaks 0 <= x /\ nth m breaks 0 <= y else x <= nth m breaks 0 /\ y <= nth m breaks 0).
  { intros m Hm. destruct (Nat.ltb_spec m k); split; auto; try (apply Ux; lia); apply Uy; lia. }
  destruct i as [|j].
  - destruct (Nat.ltb_spec 0 (length breaks)) as [H0|H0]; [|destruct breaks; [discriminate|simpl in H0; lia]].
    specialize (B _ H0). destruct (Nat.ltb_spec 0 k); destruct (Nat.eqb_spec 0 k); try lia;
    unfold piece, Rmin; rcases; lra.
  - assert (Hj : (j < length breaks)%nat) by lia. pose proof (B _ Hj) as Bj.
    destruct (Nat.ltb_spec (S j) (length breaks)) as [Hs|Hs].
    + pose proof (B _ Hs) as Bs. assert (nth j breaks 0 <= nth (S j) breaks 0) by (apply H; lia).
      destruct (Nat.ltb_spec j k); destruct (Nat.ltb_spec (S j) k); destruct (Nat.eqb_spec (S j) k); try lia;
      unfold piece, clip, Rmin, Rmax; rcases; lra.
    + destruct (Nat.ltb_spec j k); destruct (Nat.eqb_spec (S j) k); try lia;
      unfold piece, Rmax; rcases; lra.
Qed.
Lemma wsum_diff (p : nat -> R) (l : list leg) x y d k off :
  (forall i, (i < length l)%nat -> piece y (nth i l (None, None)) - piece x (nth i l (None, None)) = if Nat.eqb i k then d else 0) ->
  rsum (map (fun k => p (fst k) * piece y (snd k)) (combine (seq off (length l)) l)) -
  rsum (map (fun k => p (fst k) * piece x (snd k)) (combine (seq off (length l)) l)) =
  if Nat.ltb k (length l) then p (off + k)%nat * d else 0.
Proof.
  revert off k; induction l as [|a l IH]; intros off k H.
  - simpl. ring.
  - cbn [length seq combine map rsum fold_right fst snd].
    fold (rsum (map (fun k => p (fst k) * piece y (snd k)) (combine (seq (S off) (length l)) l))).
    fold (rsum (map (fun k => p (fst k) * piece x (snd k)) (combine (seq (S off) (length l)) l))).
    destruct k as [|k].
    + pose proof (H 0%nat ltac:(simpl; lia)) as H0. cbn [nth Nat.eqb] in H0.
      assert (Z : forall (m : list leg) off, (forall i, (i < length m)%nat -> piece y (nth i m (None, None)) - piece x (nth i m (None, None)) = 0) ->
        rsum (map (fun k => p (fst k) * piece y (snd k)) (combine (seq off (length m)) m)) -
        rsum (map (fun k => p (fst k) * piece x (snd k)) (combine (seq off (length m)) m)) = 0).
      { clear. induction m as [|b m IHm]; intros off H; [simpl; ring|].
        cbn [length seq combine map rsum fold_right fst snd].
        pose proof (H 0%nat ltac:(simpl; lia)) as H0. cbn [nth] in H0.
        specialize (IHm (S off) (fun i Hi => H (S i) ltac:(simpl; lia))).
        fold (rsum (map (fun k => p (fst k) * piece y (snd k)) (combine (seq (S off) (length m)) m))).
        fold (rsum (map (fun k => p (fst k) * piece x (snd k)) (combine (seq (S off) (length m)) m))).
        replace (piece y b) with (piece x b) by lra. lra. }
      specialize (Z l (S off) (fun i Hi => H (S i) ltac:(simpl; lia))).
      replace (piece y a) with (piece x a + d) by lra. cbn [Nat.ltb Nat.leb]. rewrite Nat.add_0_r. lra.
    + pose proof (H 0%nat ltac:(simpl; lia)) as H0. cbn [nth Nat.eqb] in H0.
      specialize (IH (S off) k (fun i Hi => H (S i) ltac:(simpl; lia))).
      replace (piece y a) with (piece x a) by lra.
      change (Nat.ltb (S k) (S (length l))) with (Nat.ltb k (length l)).
      replace (off + S k)%nat with (S off + k)%nat by lia. lra.
Qed.
Lemma slope p x y breaks k v w : increasing breaks -> in_segment breaks k x -> in_segment breaks k y ->
  piecewise_linear p x breaks = Some v -> piecewise_linear p y breaks = Some w -> w - v = p k * (y - x).
Proof.
  unfold piecewise_linear. destruct (legs breaks) as [l|] eqn:E; [|discriminate].
  intros H Hx Hy E1 E2. injection E1 as <-. injection E2 as <-.
  rewrite (wsum_diff p l x y (y - x) k 0 (fun i Hi => legs_diff _ _ _ _ _ _ E H Hx Hy Hi)).
  rewrite (legs_length _ _ E). destruct Hx as [Hk _]. destruct (Nat.ltb_spec k (S (length breaks))); [reflexivity|lia].
Qed.
Lemma equal_slopes b x breaks v : increasing breaks ->
  piecewise_linear (fun _ => b) x breaks = Some v -> v = b * x.
Proof.
  unfold piecewise_linear. destruct (legs breaks) as [l|] eqn:E; [|discriminate]. intros H E1. injection E1 as <-.
  transitivity (b * rsum (map (piece x) l)); [|now rewrite (legs_sum x breaks l H E)]. clear E. generalize 0%nat as off.
  induction l as [|a l IH]; intros off; [simpl; ring|].
  cbn [length seq combine map rsum fold_right fst snd].
  fold (rsum (map (piece x) l)). rewrite Rmult_plus_distr_l. rewrite <- (IH (S off)). reflexivity.
Qed.
Lemma every_segment breaks x : increasing breaks -> exists k, in_segment breaks k x.
Proof.
  induction breaks as [|b r IH]; intros H.
  - exists 0%nat. split; [lia|]. split; intros i Hi; simpl in Hi; lia.
  - destruct (Rle_dec x b) as [L|L].
    + exists 0%nat. split; [lia|]. split; [intros i Hi; lia|]. intros i Hi.
      assert (b <= nth i (b :: r) 0) by (apply (H 0 i)%nat; lia). lra.
    + destruct (IH (increasing_tl _ _ H)) as (k & Hk & Lo & Up). exists (S k). split; [simpl; lia|]. split.
      * intros [|i] Hi; simpl; [lra|apply Lo; lia].
      * intros [|i] Hi; [lia|]. apply (Up i). simpl in Hi. lia.
Qed.

(** ** infer_breaks *)
Lemma oreqb_refl a : oreqb a a = true.
Proof. destruct a; simpl; auto. destruct (Req_EM_T r r); auto. Qed.
Lemma oreqb_eq a b : oreqb a b = true -> a = b.
Proof. destruct a, b; simpl; try discriminate; auto. destruct (Req_EM_T r r0); [congruence|discriminate]. Qed.
Lemma last_snoc {A} (l : list A) a d : last (l ++ [a]) d = a.
Proof. induction l as [|x l IH]; [auto|]. simpl. destruct (l ++ [a]) eqn:E; [destruct l; discriminate|]. auto. Qed.

Lemma infer_mid b r done :
  infer_middle (done ++ [Some b]) (map Some (removelast (mid b r))) = Some (done ++ map Some (b :: r)).
Proof.
  revert b done; induction r as [|c r IH]; intros b done; [reflexivity|].
  assert (N : mid c r <> []) by (destruct r; discriminate).
  assert (RL : removelast (mid b (c :: r)) = (Some b, Some c) :: removelast (mid c r))
    by (cbn [mid]; destruct (mid c r); [contradiction|reflexivity]).
  rewrite RL. cbn [map infer_middle]. rewrite last_snoc, oreqb_refl. rewrite IH. rewrite <- app_assoc. reflexivity.
Qed.
Lemma removelast_map {A B} (f : A -> B) l : removelast (map f l) = map f (removelast l).
Proof. induction l as [|a l IH]; [auto|]. destruct l; [auto|]. cbn [map removelast] in *. now rewrite IH. Qed.
Lemma mid_last b r : last (mid b r) (None, None) = (Some (last (b :: r) 0), None).
Proof.
  revert b; induction r as [|c r IH]; intros b; [reflexivity|].
  assert (RL : last (mid b (c :: r)) (None, None) = last (mid c r) (None, None)) by (destruct r; reflexivity).
  rewrite RL.
  rewrite IH. reflexivity.
Qed.
Lemma last_map {A B} (f : A -> B) l d : l <> [] -> last (map f l) (f d) = f (last l d).
Proof. induction l as [|a l IH]; [contradiction|]. intros _. destruct l; [auto|]. apply IH. discriminate. Qed.
Lemma last_default {A} (l : list A) d e : l <> [] -> last l d = last l e.
Proof. induction l as [|a l IH]; [contradiction|]. intros _. destruct l; [auto|]. apply IH. discriminate. Qed.
Lemma infer_legs breaks l : legs breaks = Some l -> infer_breaks (map Some l) = Some (map Some breaks).
Proof.
  destruct breaks as [|b r]; [discriminate|]. rewrite legs_cons. intros E; injection E as <-.
  unfold infer_breaks. cbn [map tl].
  rewrite removelast_map. pose proof (infer_mid b r []) as I. cbn [app] in I. rewrite I.
  assert (N : mid b r <> []) by (destruct r; discriminate).
  replace (last (Some (None, Some b) :: map Some (mid b r)) None) with (last (map Some (mid b r)) None)
    by (destruct (mid b r); [contradiction|reflexivity]).
  rewrite (last_default _ None (Some (None, None))) by (destruct (mid b r); [contradiction|discriminate]).
  rewrite last_map by auto. rewrite mid_last.
  change (Some b :: map Some r) with (map Some (b :: r)).
  rewrite (last_default _ None (Some 0)) by discriminate. rewrite last_map by discriminate.
  rewrite oreqb_refl. reflexivity.
Qed.
Lemma infer_middle_sound l : forall done b res,
  infer_middle (done ++ [b]) l = Some res ->
  exists more, res = done ++ b :: more /\ length more = length l /\
    forall i, (i < length l)%nat -> nth i l None = Some (nth i (b :: more) None, nth (S i) (b :: more) None).
Proof.
  induction l as [|[[lo hi]|] l IH]; intros done b res H; cbn [infer_middle] in H; [| |discriminate].
  - injection H as <-. exists []. split; [auto|]. split; [auto|]. simpl. lia.
  - rewrite last_snoc in H. destruct (oreqb b lo) eqn:E; [|discriminate]. apply oreqb_eq in E. subst lo.
    destruct (IH _ _ _ H) as (more & -> & Hl & Hn). exists (hi :: more). split; [now rewrite <- app_assoc|].
    split; [simpl; auto|]. intros [|i] Hi; [reflexivity|]. simpl in Hi. cbn [nth]. apply Hn. lia.
Qed.
Lemma nth_ext_gen {A} (l l' : list A) d : length l = length l' -> (forall i, (i < length l)%nat -> nth i l d = nth i l' d) -> l = l'.
Proof. intros. eapply nth_ext; eauto. Qed.
Lemma infer_sound fn breaks : infer_breaks fn = Some (map Some breaks) ->
  exists l, legs breaks = Some l /\ fn = map Some l.
Proof.
  unfold infer_breaks. destruct fn as [|[[[z|] hi]|] fn]; try discriminate. cbn [tl].
  destruct (infer_middle [hi] (removelast fn)) as [bs|] eqn:E; [|discriminate].
  destruct (infer_middle_sound _ [] _ _ E) as (more & Hb & Hl & Hn). cbn [app] in Hb.
  destruct (last (Some (None, hi) :: fn) None) as [[lo [w|]]|] eqn:El; try discriminate.
  destruct (oreqb (last bs None) lo) eqn:Eo; [|discriminate]. intros Eb. injection Eb as Eb. apply oreqb_eq in Eo.
  destruct breaks as [|b r]; [subst bs; discriminate|].
  exists ((None, Some b) :: mid b r). split; [apply legs_cons|].
  rewrite Eb in Hb. cbn [map] in Hb. injection Hb as Hh Hm. subst hi more.
  destruct fn as [|f0 fn0].
  { discriminate El. }
  assert (NE : f0 :: fn0 <> []) by discriminate. remember (f0 :: fn0) as fn eqn:Ef. clear Ef f0 fn0.
  cbn [map]. f_equal.
  rewrite (app_removelast_last None NE).
  replace (last (Some (None, Some b) :: fn) None) with (last fn None) in El by (destruct fn; [contradiction|reflexivity]).
  rewrite El. clear NE. set (q := removelast fn) in *. clearbody q. clear E El fn.
  rewrite Eb in Eo.
  assert (Elo : lo = Some (last (b :: r) 0)).
  { rewrite <- Eo. rewrite (last_default _ None (Some 0)) by discriminate. now rewrite last_map by discriminate. }
  rewrite Elo. clear lo Eo Elo Eb bs. rewrite map_length in Hl.
  revert b q Hl Hn. induction r as [|c r IH]; intros b q Hl Hn.
  - destruct q; [reflexivity|discriminate].
  - destruct q as [|q0 q]; [discriminate|]. cbn [app mid map]. f_equal.
    + apply (Hn 0%nat). simpl. lia.
    + specialize (IH c q). change (last (b :: c :: r) 0) with (last (c :: r) 0).
      apply IH; [simpl in Hl; lia|]. intros i Hi. apply (Hn (S i)). simpl. lia.
Qed.
