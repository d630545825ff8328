(** The dataset [from_idca] builds, in closed form. *)
From Verif Require Export IdcaProofs.
From Coq Require Import Permutation.
Open Scope nat_scope.

Lemma distinctb_nodup : forall codes, distinctb pair_eqb codes = true -> NoDup codes.
Proof.
  induction codes as [|c cs IH]; intros H; constructor; cbn in H; apply andb_prop in H as [A B]; auto.
  intros I. apply negb_true_iff in A. rewrite <- not_true_iff_false in A. apply A. apply existsb_exists.
  exists c. split; auto. unfold pair_eqb. destruct c as [x [y|]]; cbn; rewrite Nat.eqb_refl; auto. now rewrite Nat.eqb_refl.
Qed.
Lemma nodup_distinctb : forall codes, NoDup codes -> distinctb pair_eqb codes = true.
Proof.
  induction 1 as [|c cs N D IH]; auto. cbn. rewrite IH, andb_true_r. apply negb_true_iff, not_true_iff_false.
  intros H. apply existsb_exists in H as ([x' y'] & I & E). apply N. destruct c as [x y]. unfold pair_eqb in E. cbn in E.
  apply andb_prop in E as [E1 E2]. apply Nat.eqb_eq in E1. subst x'.
  destruct y, y'; try discriminate; auto. apply Nat.eqb_eq in E2. now subst.
Qed.
Definition full (c : nat * nat) : nat * option nat := (fst c, Some (snd c)).
Lemma some_codes_full : forall l, some_codes (map full l) = map snd l.
Proof. induction l as [|c l IH]; cbn; [auto|]. now f_equal. Qed.
Lemma fst_full : forall l, map fst (map full l) = map fst l.
Proof. intros. rewrite map_map. reflexivity. Qed.
Definition place (codes0 : list (nat * nat)) : list (nat * nat) :=
  map (fun c => (new_code (map fst codes0) (fst c), new_code (map snd codes0) (snd c))) codes0.
Lemma placed_place : forall alts l, placed alts (map full l) = place l.
Proof. intros. unfold placed, place. rewrite some_codes_full, fst_full, !map_map. reflexivity. Qed.
Lemma place_len : forall l, length (place l) = length l.
Proof. intros. apply map_length. Qed.
Lemma place_nth : forall l r c a, nth_error l r = Some (c, a) ->
  nth_error (place l) r = Some (new_code (map fst l) c, new_code (map snd l) a).
Proof. intros. unfold place. now rewrite nth_error_map, H. Qed.
Lemma place_nodup : forall l, NoDup l -> NoDup (place l).
Proof.
  intros l N. apply NoDup_nth_error. intros r r' L E. rewrite place_len in L.
  apply (proj1 (NoDup_nth_error l) N); auto.
  destruct (nth_error l r) as [[c a]|] eqn:A; [|apply nth_error_None in A; lia].
  rewrite (place_nth _ _ _ _ A) in E.
  destruct (nth_error l r') as [[c' a']|] eqn:A'.
  - rewrite (place_nth _ _ _ _ A') in E.
    assert (E1 : new_code (map fst l) c = new_code (map fst l) c') by congruence.
    assert (E2 : new_code (map snd l) a = new_code (map snd l) a') by congruence.
    apply nth_error_In in A, A'.
    apply new_code_inj in E1; [|apply (in_map fst _ _ A)|apply (in_map fst _ _ A')].
    apply new_code_inj in E2; [|apply (in_map snd _ _ A)|apply (in_map snd _ _ A')]. now subst.
  - exfalso. apply nth_error_None in A'. assert (nth_error (place l) r' = None) by (apply nth_error_None; now rewrite place_len).
    congruence.
Qed.

(** *** Relabelling *)
Lemma nodup_one_to : forall n, NoDup (one_to n).
Proof.
  intros. unfold one_to. apply FinFun.Injective_map_NoDup; [|apply seq_NoDup]. intros a b H. lia.
Qed.
Lemma label_eqb_eq : forall a b, label_eqb a b = true <-> a = b.
Proof.
  intros [] []; cbn; split; intros H; try discriminate; try (apply String.eqb_eq in H; congruence);
    try (apply Z.eqb_eq in H; congruence); injection H as ->; [apply String.eqb_refl|apply Z.eqb_refl].
Qed.
Lemma distinct_labels : forall l, distinctb label_eqb l = true -> NoDup l.
Proof.
  induction l as [|x l IH]; intros H; constructor; cbn in H; apply andb_prop in H as [A B]; auto.
  intros I. apply negb_true_iff in A. rewrite <- not_true_iff_false in A. apply A. apply existsb_exists.
  exists x. split; auto. now apply label_eqb_eq.
Qed.
Lemma position_spec : forall l (a : label), In a l ->
  exists p, position (label_eqb a) l = Some p /\ nth_error l p = Some a.
Proof.
  assert (Q : forall a b, label_eqb a b = true <-> a = b).
  { intros [] []; cbn; split; intros H; try discriminate; try (apply String.eqb_eq in H; congruence);
    try (apply Z.eqb_eq in H; congruence); injection H as ->; [apply String.eqb_refl|apply Z.eqb_refl]. }
  induction l as [|x l IH]; intros a I; [contradiction|]. cbn. destruct (label_eqb a x) eqn:E.
  - apply Q in E. subst. now exists 0.
  - destruct I as [->|I]; [rewrite (proj2 (Q a a) eq_refl) in E; discriminate|].
    destruct (IH a I) as (p & A & B). rewrite A. now exists (S p).
Qed.
(** What relabelling does to a row. *)
Lemma relabel_rows : forall t o alts codes names, proper t -> covered o t ->
  relabel t (listed (o_altnames o)) = Ok (alts, codes, names) ->
  exists codes0, codes = map full codes0 /\ length codes0 = length (t_codes t) /\ NoDup alts /\
   (forall i c a, nth_error (t_codes t) i = Some (c, Some a) -> exists b, nth_error codes0 i = Some (c, b) /\ b < length alts /\
      match t_alts t with
      | AInt l => alts = l /\ a = b
      | AOther l => exists ns, naming_of (o_altnames o) names = Some (NList ns) /\ length ns = length alts /\
                      nth_error ns b = nth_error l a /\ NoDup ns
      end).
Proof.
  intros t o alts codes names P C R. unfold relabel in R. unfold covered in C.
  assert (F : exists c1, t_codes t = map full c1).
  { pose proof (p_codes t P) as H. revert H. generalize (t_codes t). induction l as [|[c oa] l IH]; intros H.
    - now exists [].
    - destruct IH as (c1 & E); [intros; apply H; right; auto|]. destruct (H c oa (or_introl eq_refl)) as (_ & a & -> & _).
      exists ((c, a) :: c1). cbn. now rewrite E. }
  destruct F as (c1 & F).
  destruct (t_alts t) as [l|l] eqn:TA.
  - injection R as <- <- <-. exists c1. rewrite F, map_length. repeat split; auto.
    + pose proof (p_labels t P) as N. unfold labels in N. rewrite TA in N. now apply NoDup_map_inv in N.
    + intros i c a H. exists a. assert (H' := H). rewrite nth_error_map in H. destruct (nth_error c1 i) as [[c' a']|]; [|discriminate].
      cbn in H. injection H as -> ->. repeat split; auto.
      rewrite <- F in H'. apply nth_error_In in H'. apply (p_codes t P) in H' as (_ & b & E & L). injection E as <-.
      unfold labels in L. now rewrite TA, map_length in L.
  - assert (LT : labels t = l) by (unfold labels; now rewrite TA).
    destruct (o_altnames o) as [[given|m]|] eqn:OA; [|contradiction|].
    + cbn [listed] in R. destruct (negb (distinctb label_eqb given)) eqn:DB; [discriminate|].
      set (rc := fun c : nat * option nat => _) in R.
      destruct (negb (codes_fit _ _)) eqn:CF; [discriminate|]. injection R as <- <- <-.
      exists (map (fun c => (fst c, match nth_error l (snd c) with
                                    | Some a => match position (label_eqb a) given with Some p => p | None => 0 end
                                    | None => 0 end)) c1).
      rewrite F, !map_length, map_map, map_map. repeat split; auto.
      * apply map_ext_in. intros [c a] I.
        assert (I' : In (c, Some a) (t_codes t)) by (rewrite F; apply (in_map full _ _ I)).
        apply (p_codes t P) in I' as (_ & b & E & L). injection E as <-. rewrite LT in L.
        unfold rc, full. cbn [fst snd]. destruct (nth_error l a) as [x|] eqn:N; [|apply nth_error_None in N; lia].
        destruct (position_spec given x) as (p & Hp & _); [apply C; rewrite LT; eapply nth_error_In; eauto|]. now rewrite Hp.
      * apply nodup_one_to.
      * intros i c a H. rewrite nth_error_map in H. destruct (nth_error c1 i) as [[c' a']|] eqn:CI1; [|discriminate].
        cbn in H. injection H as -> ->. rewrite nth_error_map, CI1. cbn [option_map fst snd].
        assert (I' : In (c, Some a) (t_codes t)) by (rewrite F; apply (in_map full _ (c, a)); eapply nth_error_In; eauto).
        apply (p_codes t P) in I' as (_ & b & E & L). injection E as <-. rewrite LT in L.
        destruct (nth_error l a) as [x|] eqn:N; [|apply nth_error_None in N; lia].
        destruct (position_spec given x) as (p & Hp & Hn); [apply C; rewrite LT; eapply nth_error_In; eauto|].
        rewrite Hp. exists p. assert (p < length given) by (apply nth_error_Some; congruence).
        unfold one_to. rewrite map_length, seq_length. repeat split; auto. exists given. apply negb_false_iff, distinct_labels in DB. auto.
    + cbn [listed] in R. injection R as <- <- <-. exists c1. rewrite F, map_length. repeat split; auto.
      * apply nodup_one_to.
      * intros i c a H. exists a. assert (H' := H). rewrite nth_error_map in H. destruct (nth_error c1 i) as [[c' a']|]; [|discriminate].
        cbn in H. injection H as -> ->. rewrite <- F in H'. apply nth_error_In in H'.
        apply (p_codes t P) in H' as (_ & b & E & L). injection E as <-. rewrite LT in L.
        unfold one_to. rewrite map_length, seq_length. repeat split; auto. exists l. pose proof (p_labels t P) as NL. rewrite LT in NL. auto.
Qed.

(** *** The variables *)
Definition column_var (junk : Z) (crack : bool) (nc na : nat) (at_ : list (nat * nat)) (d : dtype) (vals : list cell) : var :=
  retype junk d ((if crack then dissolve else fun v => v) (to_dense nc na at_ d vals)).
Definition base (junk : Z) (crack : bool) (nc na : nat) (at_ : list (nat * nat)) (cols : list (string * (dtype * list cell)))
  : list (string * var) :=
  map (fun kc => (fst kc, column_var junk crack nc na at_ (fst (snd kc)) (snd (snd kc)))) cols.
Lemma look_own : forall A (l : list (string * A)) k a, NoDup (map fst l) -> In (k, a) l -> look k l = Some a.
Proof.
  intros A. induction l as [|[k' a'] l IH]; intros k a N I; [contradiction|]. unfold look. cbn in *. inversion_clear N.
  destruct (String.eqb k k') eqn:E.
  - apply String.eqb_eq in E. subst. destruct I as [I|I]; [now injection I as ->|].
    exfalso. apply H. apply (in_map fst) in I. auto.
  - destruct I as [I|I]; [injection I as -> ->; rewrite String.eqb_refl in E; discriminate|]. apply (IH k a); auto.
Qed.
Lemma look_in : forall A (l : list (string * A)) k a, look k l = Some a -> In (k, a) l.
Proof.
  intros A l k a H. unfold look in H. destruct (find _ l) as [[k' a']|] eqn:E; [|discriminate]. cbn in H. injection H as ->.
  apply find_some in E as [I E]. cbn in E. apply String.eqb_eq in E. now subst.
Qed.
Lemma base_spec : forall junk (crack : bool) nc na at_ cols, NoDup (map fst cols) ->
  set_dtypes junk cols
    (let vs := map (fun kc => (fst kc, to_dense nc na at_ (fst (snd kc)) (snd (snd kc)))) cols in
     if crack then map (fun kv => (fst kv, dissolve (snd kv))) vs else vs)
  = base junk crack nc na at_ cols.
Proof.
  intros junk crack nc na at_ cols N. unfold set_dtypes, base, column_var. cbn zeta.
  destruct crack; rewrite ?map_map; apply map_ext_in; intros [k [d vals]] I; cbn [fst snd]; now rewrite (look_own _ cols k (d, vals)).
Qed.
Lemma base_fst : forall junk crack nc na at_ cols, map fst (base junk crack nc na at_ cols) = map fst cols.
Proof. intros. unfold base. rewrite map_map. reflexivity. Qed.

(** *** Filling *)
Definition filler (f : filling) (k : string) (d : dtype) : option cell :=
  match f with
  | FScalar c => Some c
  | FMap m => match fget (KVar k) m, fget (KType d) m with
              | Some c, Some _ => Some c
              | None, Some c => Some c
              | _, None => None
              end
  end.
Definition fillk (na : nat) (f : filling) (flag : var) (kv : string * var) : string * var :=
  (fst kv, match snd kv with
           | Dense d rows => match filler f (fst kv) d with Some c => where_ na flag c d rows | None => snd kv end
           | PerCase _ _ => snd kv
           end).
Lemma fillk_fst : forall na f flag l, map fst (map (fillk na f flag) l) = map fst l.
Proof. intros. rewrite map_map. reflexivity. Qed.
Lemma fillk_dense : forall na f flag k d rows, fillk na f flag (k, Dense d rows) =
  (k, match filler f k d with Some c => where_ na flag c d rows | None => Dense d rows end).
Proof. reflexivity. Qed.
Lemma put_none : forall k v l, ~ In k (map fst l) -> put k v l = l.
Proof.
  intros k v. induction l as [|[k' v'] l IH]; intros H; auto. cbn in *. destruct (String.eqb k k') eqn:E.
  - apply String.eqb_eq in E. exfalso. auto.
  - unfold put in IH. f_equal. auto.
Qed.
Lemma put_mid : forall k v x l r, ~ In k (map fst l) -> ~ In k (map fst r) -> put k v (l ++ (k, x) :: r) = l ++ (k, v) :: r.
Proof.
  intros k v x l r A B. unfold put. rewrite map_app. cbn. rewrite String.eqb_refl. f_equal; [now apply put_none|].
  f_equal. now apply put_none.
Qed.
Lemma fill_all_spec : forall na f flag todo done out,
  NoDup (map fst (done ++ todo ++ [("_avail_"%string, flag)])) ->
  fill_all na f (map fst (todo ++ [("_avail_"%string, flag)])) (map (fillk na f flag) done ++ todo ++ [("_avail_"%string, flag)]) = Ok out ->
  out = map (fillk na f flag) (done ++ todo ++ [("_avail_"%string, flag)]).
Proof.
  intros na f flag todo. induction todo as [|[k x] todo IH]; intros done out N H.
  - cbn in H. unfold bind in H.
    assert (LK : look "_avail_" (map (fillk na f flag) done ++ [("_avail_"%string, flag)]) = Some flag).
    { apply look_own; [|apply in_or_app; cbn; auto]. rewrite map_app, fillk_fst, <- (map_app fst done [("_avail_"%string, flag)]). auto. }
    assert (A : ~ In "_avail_"%string (map fst (map (fillk na f flag) done))).
    { rewrite fillk_fst. rewrite map_app in N. cbn in N. apply NoDup_remove_2 in N. now rewrite app_nil_r in N. }
    rewrite map_app. cbn [app map]. unfold fill_one in H. rewrite LK in H. unfold fillk at 2. cbn [fst snd].
    destruct flag as [d rows|d vals]; [|now injection H as <-].
    unfold filler. destruct f as [c|m].
    + rewrite put_mid in H by (auto; cbn; auto). now injection H as <-.
    + destruct (fget (KVar _) m), (fget (KType d) m); try discriminate;
      try (rewrite put_mid in H by (auto; cbn; auto)); now injection H as <-.
  - cbn [app map fst fill_all] in H.
    assert (N' : NoDup (map fst (map (fillk na f flag) done ++ (k, x) :: todo ++ [("_avail_"%string, flag)]))).
    { rewrite map_app, fillk_fst, <- (map_app fst done). exact N. }
    assert (LK : look k (map (fillk na f flag) done ++ (k, x) :: todo ++ [("_avail_"%string, flag)]) = Some x).
    { apply look_own; auto. apply in_or_app. cbn. auto. }
    assert (LA : look "_avail_"%string (map (fillk na f flag) done ++ (k, x) :: todo ++ [("_avail_"%string, flag)]) = Some flag).
    { apply look_own; auto. apply in_or_app. right. right. apply in_or_app. cbn; auto. }
    assert (K1 : ~ In k (map fst (map (fillk na f flag) done))).
    { rewrite map_app in N'. apply NoDup_remove_2 in N'. intros I. apply N', in_or_app. auto. }
    assert (K2 : ~ In k (map fst (todo ++ [("_avail_"%string, flag)]))).
    { rewrite map_app in N'. apply NoDup_remove_2 in N'. intros I. apply N', in_or_app. auto. }
    assert (ST : fill_one na f (map (fillk na f flag) done ++ (k, x) :: todo ++ [("_avail_"%string, flag)]) k = Ok
      (map (fillk na f flag) (done ++ [(k, x)]) ++ todo ++ [("_avail_"%string, flag)]) \/
      fill_one na f (map (fillk na f flag) done ++ (k, x) :: todo ++ [("_avail_"%string, flag)]) k = KeyErr).
    { rewrite map_app, <- app_assoc. cbn [map app]. unfold fill_one. rewrite LK.
      destruct x as [d rows|d vals]; [|auto]. rewrite LA, fillk_dense. unfold filler. destruct f as [c|m].
      - left. now rewrite put_mid.
      - destruct (fget (KVar k) m), (fget (KType d) m); auto; left; first [reflexivity | now rewrite put_mid]. }
    destruct ST as [ST|ST]; rewrite ST in H; [|discriminate]. cbn [bind] in H.
    apply IH in H; [|now rewrite <- app_assoc]. rewrite H, <- app_assoc. reflexivity.
Qed.
Lemma fill_scalar_ok : forall na c flag todo done,
  NoDup (map fst (done ++ todo ++ [("_avail_"%string, flag)])) ->
  exists out, fill_all na (FScalar c) (map fst (todo ++ [("_avail_"%string, flag)]))
      (map (fillk na (FScalar c) flag) done ++ todo ++ [("_avail_"%string, flag)]) = Ok out.
Proof.
  intros na c flag todo. induction todo as [|[k x] todo IH]; intros done N.
  - cbn. unfold bind, fill_one.
    rewrite (look_own _ _ _ flag); [|rewrite map_app, fillk_fst, <- (map_app fst done [("_avail_"%string, flag)]); auto|apply in_or_app; cbn; auto].
    destruct flag; eauto.
  - cbn [app map fst fill_all].
    assert (N' : NoDup (map fst (map (fillk na (FScalar c) flag) done ++ (k, x) :: todo ++ [("_avail_"%string, flag)]))).
    { rewrite map_app, fillk_fst, <- (map_app fst done). exact N. }
    assert (K1 : ~ In k (map fst (map (fillk na (FScalar c) flag) done))).
    { rewrite map_app in N'. apply NoDup_remove_2 in N'. intros I. apply N', in_or_app. auto. }
    assert (K2 : ~ In k (map fst (todo ++ [("_avail_"%string, flag)]))).
    { rewrite map_app in N'. apply NoDup_remove_2 in N'. intros I. apply N', in_or_app. auto. }
    destruct (IH (done ++ [(k, x)])) as (out & H); [now rewrite <- app_assoc|]. exists out. rewrite <- H. clear H IH.
    unfold fill_one at 1. rewrite (look_own _ _ k x); auto; [|apply in_or_app; cbn; auto].
    rewrite (look_own _ _ "_avail_"%string flag); auto; [|apply in_or_app; right; right; apply in_or_app; cbn; auto].
    rewrite (map_app (fillk na (FScalar c) flag) done), <- app_assoc. cbn [map app].
    destruct x; cbn [bind]; auto. rewrite fillk_dense. cbn [filler]. now rewrite put_mid.
Qed.

(** *** Everything together *)
Definition sparse (nc na : nat) (at_ : list (nat * nat)) : bool := length at_ <? nc * na.
Definition final_vars (junk : Z) (o : options) (nc na : nat) (at_ : list (nat * nat)) (cols : list (string * (dtype * list cell)))
  : list (string * var) :=
  let b := base junk (o_crack o) nc na at_ cols in
  if negb (existsb (fun kv => String.eqb (o_avail o) (fst kv)) b) && sparse nc na at_ then
    let all := b ++ [(o_avail o, computed_avail nc na at_)] in
    match o_fill o with
    | None => all
    | Some f => map (fillk na f (computed_avail nc na at_)) all
    end
  else b.
(** Everything there is to know about the result. *)
Record reading (junk : Z) (o : options) (t : table) (ds : dataset) (alts : list Z) (codes0 : list (nat * nat)) : Prop := {
  r_nodup : NoDup codes0;
  r_len : length codes0 = length (t_codes t);
  r_alts : NoDup alts;
  r_rows : forall i c a, nth_error (t_codes t) i = Some (c, Some a) ->
     exists b, nth_error codes0 i = Some (c, b) /\ b < length alts /\
       match t_alts t with
       | AInt l => alts = l /\ a = b
       | AOther l => exists ns, length ns = length alts /\ nth_error ns b = nth_error l a /\ NoDup ns /\
            d_altnames ds = Some (map Some ns) /\ length (used_levels alts (map snd codes0)) = length alts
       end;
  r_cases : d_cases ds = used_levels (t_cases t) (map fst codes0);
  r_dalts : d_alts ds = used_levels alts (map snd codes0);
  r_vars : (o_fill o = None \/ o_avail o = "_avail_"%string) ->
     d_vars ds = final_vars junk o (length (d_cases ds)) (length (d_alts ds)) (place codes0) (t_cols t) }.
Lemma avail_notin : forall k (l : list (string * var)),
  existsb (fun kv => String.eqb k (fst kv)) l = false <-> ~ In k (map fst l).
Proof.
  intros. rewrite <- not_true_iff_false. apply not_iff_compat. rewrite existsb_exists, in_map_iff. split.
  - intros ([k' v] & I & E). apply String.eqb_eq in E. exists (k', v). cbn in *. now subst.
  - intros ([k' v] & E & I). exists (k', v). cbn in *. subst. split; auto. apply String.eqb_refl.
Qed.
Lemma reads : forall junk o t ds, proper t -> covered o t -> from_idca junk o t = Ok ds ->
  exists alts codes0, reading junk o t ds alts codes0.
Proof.
  intros junk o t ds P C H. unfold from_idca in H.
  destruct (relabel t (listed (o_altnames o))) as [[[alts codes] names]| |] eqn:R; try discriminate. cbn [bind] in H.
  destruct (relabel_rows t o alts codes names P C R) as (codes0 & -> & LEN & NA & ROWS).
  unfold from_frame in H. destruct (negb (distinctb pair_eqb (map full codes0))) eqn:DB; [discriminate|]. cbn [bind d_vars] in H.
  apply negb_false_iff, distinctb_nodup, NoDup_map_inv in DB.
  cbn zeta in H. fold (placed alts (map full codes0)) in H.
  rewrite placed_place, fst_full, some_codes_full in H.
  match type of H with context [set_dtypes junk (t_cols t) ?v] => set (v1 := v) in H end.
  set (nc := length (used_levels (t_cases t) (map fst codes0))) in *.
  set (na := length (used_levels alts (map snd codes0))) in *.
  assert (V : set_dtypes junk (t_cols t) v1 = base junk (o_crack o) nc na (place codes0) (t_cols t)).
  { apply base_spec. apply (p_names t P). }
  rewrite V in H. clear v1 V. set (b := base _ _ _ _ _ _) in *.
  exists alts, codes0.
  assert (G : exists an, (naming_of (o_altnames o) names = None \/ exists n, naming_of (o_altnames o) names = Some n /\
      match n with NList l => length l = na /\ an = Some (map Some l) | NMap _ => True end) /\
    (if negb (existsb (fun kv => String.eqb (o_avail o) (fst kv)) b) && (length (map full codes0) <? nc * na) then
      match o_fill o with
      | None => Ok {| d_cases := used_levels (t_cases t) (map fst codes0); d_alts := used_levels alts (map snd codes0);
                      d_vars := b ++ [(o_avail o, computed_avail nc na (place codes0))]; d_altnames := an; d_alt_names := None |}
      | Some f => bind (fill_all na f (map fst (b ++ [(o_avail o, computed_avail nc na (place codes0))]))
                          (b ++ [(o_avail o, computed_avail nc na (place codes0))]))
                   (fun v5 => Ok {| d_cases := used_levels (t_cases t) (map fst codes0); d_alts := used_levels alts (map snd codes0);
                      d_vars := v5; d_altnames := an; d_alt_names := None |})
      end
     else Ok {| d_cases := used_levels (t_cases t) (map fst codes0); d_alts := used_levels alts (map snd codes0);
                      d_vars := b; d_altnames := an; d_alt_names := None |}) = Ok ds).
  { destruct (naming_of (o_altnames o) names) as [[l|m]|].
    - unfold set_altnames in H. cbn [d_alts with_vars] in H. fold na in H. destruct (Nat.eqb (length l) na) eqn:E; [|discriminate].
      apply Nat.eqb_eq in E. exists (Some (map Some l)). split; [right; exists (NList l); auto|]. exact H.
    - eexists. split; [right; exists (NMap m); auto|]. exact H.
    - exists None. split; [auto|]. exact H. }
  clear H. destruct G as (an & NM & H).
  assert (K : d_cases ds = used_levels (t_cases t) (map fst codes0) /\ d_alts ds = used_levels alts (map snd codes0) /\
     d_altnames ds = an /\ (o_fill o = None \/ o_avail o = "_avail_"%string ->
     d_vars ds = final_vars junk o nc na (place codes0) (t_cols t))).
  { unfold final_vars, sparse. fold b. rewrite place_len. rewrite map_length in H.
    destruct (negb _ && _) eqn:B.
    - destruct (o_fill o) as [f|] eqn:OF.
      + destruct (fill_all _ _ _ _) as [out| |] eqn:FA; try discriminate. cbn [bind] in H. injection H as <-. cbn.
        repeat split. intros [X|X]; [discriminate|]. rewrite X in *.
        apply (fill_all_spec na f _ b []) in FA; [exact FA|]. cbn [app]. rewrite map_app.
        apply andb_prop in B as [B _]. apply negb_true_iff, avail_notin in B.
        apply Permutation_NoDup with (l := "_avail_"%string :: map fst b); [apply Permutation_cons_append|].
        constructor; auto. unfold b. rewrite base_fst. apply (p_names t P).
      + injection H as <-. cbn. auto.
    - injection H as <-. cbn. auto. }
  destruct K as (K1 & K2 & K3 & K4). split; auto; [|intros X; rewrite K1, K2; now apply K4].
  intros i c a Hi. destruct (ROWS i c a Hi) as (b0 & B1 & B2 & B3). exists b0. repeat split; auto.
  destruct (t_alts t) as [l|l]; auto. destruct B3 as (ns & N1 & N2 & N3 & N4). exists ns. repeat split; auto.
  - rewrite N1 in NM. destruct NM as [NM|(n & E & M)]; [discriminate|]. injection E as <-. destruct M as [_ ->]. exact K3.
  - rewrite N1 in NM. destruct NM as [NM|(n & E & M)]; [discriminate|]. injection E as <-. destruct M as [M _]. unfold na in M. congruence.
Qed.
