From Coq Require Import FunctionalExtensionality.
From Verif Require Export UtilitySpec LogitProofs LogitRun.

Definition oplus (x : option R) (y : R) : option R := match x with Some v => Some (v + y) | None => None end.
Lemma oplus_0 x : oplus x 0 = x.
Proof. destruct x; simpl; auto. rewrite Rplus_0_r. auto. Qed.
Lemma oplus_plus x y z : oplus (oplus x y) z = oplus x (y + z).
Proof. destruct x; simpl; auto. rewrite Rplus_assoc. auto. Qed.

Section U.
Variable par : nat -> R.
Variable hold : nat -> bool.

(** one alternative's idca terms *)
Definition gD_ca (terms : list term) (x : nat -> R) (d : nat -> R) : nat -> R :=
  fun p => d p + (if hold p then 0 else coef_ca terms x p).
Lemma ca_alt_row terms j x : forall U D,
  ca_alt par hold terms j x (U, D) = (upd U j (oplus (U j) (linear_ca terms x par)), upd D j (gD_ca terms x (D j))).
Proof.
  induction terms as [|t terms IH]; intros U D.
  - simpl. unfold linear_ca, gD_ca, coef_ca. simpl. rewrite oplus_0, upd_same by auto. f_equal.
    rewrite upd_same; auto. apply functional_extensionality. intros p. destruct (hold p); rewrite Rplus_0_r; auto.
  - unfold ca_alt in *. cbn [fold_left]. unfold ca_step at 2. rewrite IH. f_equal.
    + unfold addU. rewrite upd_eq, upd_upd. f_equal. fold (oplus (U j) (x (t_data t) * t_scale t * par (t_par t))).
      rewrite oplus_plus. f_equal. unfold linear_ca. simpl. ring.
    + assert (E : forall d, gD_ca terms x (if hold (t_par t) then d else upd d (t_par t) (d (t_par t) + x (t_data t) * t_scale t))
                   = gD_ca (t :: terms) x d).
      { intros d. unfold gD_ca. apply functional_extensionality. intros p. unfold coef_ca. cbn [Rsum fold_right].
        fold (Rsum (fun t0 => if (t_par t0 =? p)%nat then t_scale t0 * x (t_data t0) else 0) terms).
        destruct (Nat.eqb_spec (t_par t) p) as [ <-|Hne].
        - destruct (hold (t_par t)) eqn:Eh; [lra|]. rewrite upd_eq. lra.
        - destruct (hold (t_par t)); [destruct (hold p); lra|]. rewrite upd_neq by auto. destruct (hold p); lra. }
      rewrite <- E. destruct (hold (t_par t)); auto. unfold addD. rewrite upd_upd, upd_eq. auto.
Qed.

(** quantity *)
Definition qcoef (terms : list term) (x : nat -> R) (p : nat) : R :=
  Rsum (fun t => if (t_par t =? p)%nat then t_scale t * x (t_data t) * exp (par (t_par t)) else 0) terms.
Definition count (terms : list term) (p : nat) : nat := length (filter (fun t => (t_par t =? p)%nat) terms).
Lemma q_fold_row qs terms j x : forall U D,
  fold_left (q_step par hold qs j x) terms (U, D) =
  (upd U j (oplus (U j) (size terms x par)),
   upd D j (fun p => D j p + (if hold p then 0 else qcoef terms x p * q_scale_value par qs))).
Proof.
  induction terms as [|t terms IH]; intros U D.
  - simpl. unfold size, qcoef. simpl. rewrite oplus_0, upd_same by auto. f_equal.
    rewrite upd_same; auto. apply functional_extensionality. intros p. destruct (hold p); lra.
  - cbn [fold_left]. unfold q_step at 2. rewrite IH. f_equal.
    + unfold addU. rewrite upd_eq, upd_upd. f_equal. fold (oplus (U j) (x (t_data t) * t_scale t * exp (par (t_par t)))).
      rewrite oplus_plus. f_equal. unfold size. simpl. ring.
    + assert (E : forall d, (fun p => (if hold (t_par t) then d else upd d (t_par t) (d (t_par t) + x (t_data t) * t_scale t * exp (par (t_par t)) * q_scale_value par qs)) p
                      + (if hold p then 0 else qcoef terms x p * q_scale_value par qs))
                   = fun p => d p + (if hold p then 0 else qcoef (t :: terms) x p * q_scale_value par qs)).
      { intros d. apply functional_extensionality. intros p. unfold qcoef. cbn [Rsum fold_right].
        fold (Rsum (fun t0 => if (t_par t0 =? p)%nat then t_scale t0 * x (t_data t0) * exp (par (t_par t0)) else 0) terms).
        destruct (Nat.eqb_spec (t_par t) p) as [ <-|Hne].
        - destruct (hold (t_par t)) eqn:Eh; [lra|]. rewrite upd_eq. lra.
        - destruct (hold (t_par t)); [destruct (hold p); lra|]. rewrite upd_neq by auto. destruct (hold p); lra. }
      rewrite <- E. destruct (hold (t_par t)); auto. unfold addD. rewrite upd_upd, upd_eq. auto.
Qed.
Lemma q_divide_row terms j U : forall D, val (U j) <> 0 ->
  fold_left (q_divide hold j U) terms D =
  upd D j (fun p => if hold p then D j p else D j p / val (U j) ^ count terms p).
Proof.
  induction terms as [|t terms IH]; intros D Hn.
  - simpl. unfold count. simpl. rewrite upd_same; auto. apply functional_extensionality. intros p.
    destruct (hold p); auto. field.
  - cbn [fold_left]. rewrite IH by auto. unfold q_divide. destruct (hold (t_par t)) eqn:Eh.
    + f_equal. apply functional_extensionality. intros p. destruct (hold p) eqn:Ep; auto.
      unfold count. simpl. destruct (Nat.eqb_spec (t_par t) p); [congruence|auto].
    + rewrite upd_upd, upd_eq. f_equal. apply functional_extensionality. intros p.
      unfold count. simpl. destruct (Nat.eqb_spec (t_par t) p) as [ <-|Hne].
      * rewrite upd_eq, Eh. simpl. field. split; auto. apply pow_nonzero. auto.
      * rewrite upd_neq by auto. auto.
Qed.

(** row functions of quantity *)
Definition gU_q (terms : list term) (qs : option nat) (x : nat -> R) (u : option R) : option R :=
  match terms with [] => u | _ => Some (ln (val (oplus u (size terms x par))) * q_scale_value par qs) end.
Definition gD_q (terms : list term) (qs : option nat) (x : nat -> R) (u : option R) (d : nat -> R) : nat -> R :=
  match terms with [] => d | _ => 
    let tot := val (oplus u (size terms x par)) in
    fun p => (if hold p then d p else (d p + qcoef terms x p * q_scale_value par qs) / tot ^ count terms p)
      + match qs with Some s => if hold s then 0 else if (p =? s)%nat then ln tot else 0 | None => 0 end
  end.
Lemma q_alt_row terms qs j x U D : (terms <> [] -> val (oplus (U j) (size terms x par)) <> 0) ->
  q_alt par hold terms qs j x (U, D) = (upd U j (gU_q terms qs x (U j)), upd D j (gD_q terms qs x (U j) (D j))).
Proof.
  intros Hn. destruct terms as [|t r].
  - simpl. rewrite !upd_same; auto.
  - unfold q_alt, gU_q, gD_q. rewrite q_fold_row. rewrite q_divide_row by (rewrite upd_eq; apply Hn; discriminate).
    rewrite !upd_eq, !upd_upd. f_equal. 
    set (tot := val _). set (terms := t :: r).
    assert (E : forall F : nat -> R, (fun p => F p + 0) = F) by (intros; apply functional_extensionality; intros; lra).
    assert (E2 : (fun p => if hold p then D j p + (if hold p then 0 else qcoef terms x p * q_scale_value par qs)
        else (D j p + (if hold p then 0 else qcoef terms x p * q_scale_value par qs)) / tot ^ count terms p) =
       (fun p => if hold p then D j p else (D j p + qcoef terms x p * q_scale_value par qs) / tot ^ count terms p)).
    { apply functional_extensionality. intros p. destruct (hold p); lra. }
    rewrite E2. destruct qs as [s|]; [|rewrite E; auto]. destruct (hold s) eqn:Es; [rewrite E; auto|].
    unfold addD. rewrite upd_upd, !upd_eq. f_equal. apply functional_extensionality. intros p.
    destruct (Nat.eqb_spec p s) as [ ->|Hne]; [rewrite upd_eq, Es; auto|].
    rewrite upd_neq by auto. lra.
Qed.

(** dense and sparse traversals with a row-wise function *)
Section Traverse.
Variable gU : nat -> (nat -> R) -> option R -> option R.
Variable gD : nat -> (nat -> R) -> option R -> (nat -> R) -> (nat -> R).
Variable ok : nat -> (nat -> R) -> option R -> Prop.
Variable f : nat -> (nat -> R) -> ustate -> ustate.
Hypothesis Hf : forall j x U D, ok j x (U j) -> f j x (U, D) = (upd U j (gU j x (U j)), upd D j (gD j x (U j) (D j))).

Lemma dense_gen av ca n0 m U D :
  (forall j, (n0 <= j < n0 + m)%nat -> av j = true -> ok j (ca j) (U j)) ->
  let r := fold_left (fun s j => if av j then f j (ca j) s else (upd (fst s) j None, snd s)) (seq n0 m) (U, D) in
  (forall a, (n0 <= a < n0 + m)%nat -> fst r a = (if av a then gU a (ca a) (U a) else None) /\
      snd r a = (if av a then gD a (ca a) (U a) (D a) else D a)) /\
  (forall a, ~ (n0 <= a < n0 + m)%nat -> fst r a = U a /\ snd r a = D a).
Proof.
  revert n0 U D. induction m as [|m IH]; intros n0 U D Hok; cbn [seq fold_left].
  - split; intros a Ha; [lia|auto].
  - set (s1 := if av n0 then _ else _).
    assert (H1 : exists U1 D1, s1 = (U1, D1) /\
       U1 n0 = (if av n0 then gU n0 (ca n0) (U n0) else None) /\
       D1 n0 = (if av n0 then gD n0 (ca n0) (U n0) (D n0) else D n0) /\
       (forall a, a <> n0 -> U1 a = U a /\ D1 a = D a)).
    { unfold s1. destruct (av n0) eqn:Ea.
      - rewrite Hf by (apply Hok; auto; lia). do 2 eexists. split; [reflexivity|]. rewrite !upd_eq.
        repeat split; auto; rewrite upd_neq; auto.
      - simpl. do 2 eexists. split; [reflexivity|]. rewrite upd_eq. repeat split; auto; try (rewrite upd_neq; auto). }
    destruct H1 as [U1 [D1 [ -> [HU [HD Ho]]]]].
    destruct (IH (S n0) U1 D1) as [I1 I2].
    { intros j Hj Ha. destruct (Ho j) as [ -> _]; [lia|]. apply Hok; auto. lia. }
    split.
    + intros a Ha. destruct (Nat.eq_dec a n0) as [ ->|Hne].
      * destruct (I2 n0) as [ -> ->]; [lia|]. auto.
      * destruct (I1 a) as [ -> ->]; [lia|]. destruct (Ho a Hne) as [ -> ->]. auto.
    + intros a Ha. destruct (I2 a) as [ -> ->]; [lia|]. apply Ho. lia.
Qed.
Lemma dense_spec na av ca U D :
  (forall j, (j < na)%nat -> av j = true -> ok j (ca j) (U j)) ->
  let r := dense na av (fun j => f j (ca j)) (U, D) in
  forall a, (a < na)%nat -> fst r a = (if av a then gU a (ca a) (U a) else None) /\
      snd r a = (if av a then gD a (ca a) (U a) (D a) else D a).
Proof.
  intros Hok r a Ha. destruct (dense_gen av ca 0 na U D) as [H _]; [intros; apply Hok; auto; lia|].
  apply H. lia.
Qed.

Fixpoint lookup (rows : list (nat * (nat -> R))) (a : nat) : option (nat -> R) :=
  match rows with [] => None | r :: rest => if (fst r =? a)%nat then Some (snd r) else lookup rest a end.
Lemma lookup_low rows : forall lo na a, sorted_rows lo na rows -> (a < lo)%nat -> lookup rows a = None.
Proof.
  induction rows as [|r rows IH]; simpl; intros lo na a Hs Ha; auto. destruct Hs as [H1 H2].
  destruct (Nat.eqb_spec (fst r) a); [lia|]. eapply IH; eauto. lia.
Qed.
Lemma skip_spec skip j upto U a : skip_to skip j upto U a = if ((j <=? a) && (a <? upto))%nat then skip else U a.
Proof.
  unfold skip_to.
  assert (Hgen : forall m j U, fold_left (fun U i => upd U i skip) (seq j m) U a = if ((j <=? a) && (a <? j + m))%nat then skip else U a).
  { induction m as [|m IH]; intros j0 U0; simpl.
    - destruct (Nat.leb_spec j0 a), (Nat.ltb_spec a (j0 + 0)); simpl; auto; lia.
    - rewrite IH. destruct (Nat.eq_dec a j0) as [ ->|Hne].
      + rewrite upd_eq. destruct (Nat.leb_spec (S j0) j0), (Nat.leb_spec j0 j0), (Nat.ltb_spec j0 (S j0 + m)), (Nat.ltb_spec j0 (j0 + S m)); simpl; auto; lia.
      + rewrite upd_neq by auto.
        destruct (Nat.leb_spec (S j0) a), (Nat.leb_spec j0 a), (Nat.ltb_spec a (S j0 + m)), (Nat.ltb_spec a (j0 + S m)); simpl; auto; lia. }
  rewrite Hgen. destruct (Nat.leb_spec j a), (Nat.ltb_spec a (j + (upto - j))), (Nat.ltb_spec a upto); simpl; auto; lia.
Qed.
Lemma sparse_gen na skip rows : forall lo U D, sorted_rows lo na rows ->
  (forall j x, lookup rows j = Some x -> ok j x (U j)) ->
  exists hi U' D', fold_left (sparse_step skip f) rows (lo, (U, D)) = (hi, (U', D')) /\
    (lo <= hi)%nat /\ (rows <> [] -> (hi <= na)%nat) /\ (rows = [] -> hi = lo) /\
    (forall a, lookup rows a <> None -> (a < hi)%nat) /\
    (forall a, U' a = match lookup rows a with Some x => gU a x (U a)
                      | None => if ((lo <=? a) && (a <? hi))%nat then skip else U a end) /\
    (forall a, D' a = match lookup rows a with Some x => gD a x (U a) (D a) | None => D a end).
Proof.
  induction rows as [|[i x] rows IH]; intros lo U D Hs Hok.
  - exists lo, U, D. simpl. repeat split; auto; try congruence.
    intros a. destruct (Nat.leb_spec lo a), (Nat.ltb_spec a lo); simpl; auto; lia.
  - simpl in Hs. destruct Hs as [H1 H2]. cbn [fold_left sparse_step fst snd].
    replace (Nat.max lo i) with i by lia.
    assert (Hi : skip_to skip lo i U i = U i).
    { rewrite skip_spec. destruct (Nat.leb_spec lo i), (Nat.ltb_spec i i); simpl; auto; lia. }
    rewrite Hf by (rewrite Hi; apply Hok; simpl; rewrite Nat.eqb_refl; auto). rewrite Hi.
    set (U1 := upd _ i _). set (D1 := upd D i _).
    destruct (IH (S i) U1 D1 H2) as [hi [U' [D' [E [L1 [L2 [L2' [L3 [L4 L5]]]]]]]]].
    { intros j y Hj. assert (Hne : j <> i).
      { intros ->. rewrite (lookup_low rows (S i) na i) in Hj by (auto; lia). discriminate. }
      unfold U1. rewrite upd_neq by auto. rewrite skip_spec.
      assert (Hji : (S i <= j)%nat).
      { destruct (Nat.lt_ge_cases j (S i)); auto. rewrite (lookup_low rows (S i) na j) in Hj by (auto; lia). discriminate. }
      destruct (Nat.ltb_spec j i); [lia|]. rewrite andb_false_r. apply Hok. simpl.
      destruct (Nat.eqb_spec i j); [lia|auto]. }
    exists hi, U', D'. split; [exact E|].
    split; [lia|]. split; [intros _|split; [intros H; discriminate|split; [|split]]].
    + destruct rows; [rewrite L2' by auto; lia|apply L2; discriminate].
    + intros a. simpl. destruct (Nat.eqb_spec i a) as [ ->|Hne]; [intros _; lia|apply L3].
    + intros a. rewrite L4. cbn [lookup fst snd]. destruct (Nat.eqb_spec i a) as [ <-|Hne].
      * rewrite (lookup_low rows (S i) na i) by (auto; lia).
        destruct (Nat.leb_spec (S i) i); [lia|]. simpl. unfold U1. apply upd_eq.
      * unfold U1. rewrite upd_neq by auto. destruct (lookup rows a) as [y|] eqn:El.
        -- assert (Hji : (S i <= a)%nat).
           { destruct (Nat.lt_ge_cases a (S i)); auto. rewrite (lookup_low rows (S i) na a) in El by (auto; lia). discriminate. }
           rewrite skip_spec. destruct (Nat.ltb_spec a i); [lia|]. rewrite andb_false_r. auto.
        -- rewrite skip_spec.
           destruct (Nat.leb_spec (S i) a), (Nat.ltb_spec a hi), (Nat.leb_spec lo a), (Nat.ltb_spec a i); simpl; auto; lia.
    + intros a. rewrite L5. simpl. destruct (Nat.eqb_spec i a) as [ <-|Hne].
      * rewrite (lookup_low rows (S i) na i) by (auto; lia). unfold D1. apply upd_eq.
      * unfold D1. rewrite upd_neq by auto. destruct (lookup rows a) as [y|] eqn:El; auto.
        unfold U1. rewrite upd_neq by auto.
        assert (Hji : (S i <= a)%nat).
        { destruct (Nat.lt_ge_cases a (S i)); auto. rewrite (lookup_low rows (S i) na a) in El by (auto; lia). discriminate. }
        rewrite skip_spec. destruct (Nat.ltb_spec a i); [lia|]. rewrite andb_false_r. auto.
Qed.
Lemma sparse_spec na skip rows U D : sorted_rows 0 na rows ->
  (forall j x, lookup rows j = Some x -> ok j x (U j)) ->
  let r := sparse na skip f rows (U, D) in
  forall a, (a < na)%nat ->
    fst r a = (match lookup rows a with Some x => gU a x (U a) | None => skip end) /\
    snd r a = (match lookup rows a with Some x => gD a x (U a) (D a) | None => D a end).
Proof.
  intros Hs Hok r a Ha. unfold r, sparse.
  destruct (sparse_gen na skip rows 0 U D Hs Hok) as [hi [U' [D' [E [L1 [L2 [_ [L3 [L4 L5]]]]]]]]]. unfold ustate in *. rewrite E.
  simpl. rewrite L5. split; auto. rewrite skip_spec, L4.
  destruct (lookup rows a) as [x|] eqn:El.
  - assert (Hlt : (a < hi)%nat) by (apply L3; congruence). destruct (Nat.leb_spec hi a); [lia|auto].
  - destruct (Nat.leb_spec hi a), (Nat.ltb_spec a na), (Nat.ltb_spec a hi); simpl; auto; lia.
Qed.
Lemma sparse_out na skip rows U D : sorted_rows 0 na rows ->
  (forall j x, lookup rows j = Some x -> ok j x (U j)) ->
  let r := sparse na skip f rows (U, D) in
  forall a, (na <= a)%nat -> fst r a = U a /\ snd r a = D a.
Proof.
  intros Hs Hok r a Ha. unfold r, sparse.
  destruct (sparse_gen na skip rows 0 U D Hs Hok) as [hi [U' [D' [E [L1 [L2 [L2' [L3 [L4 L5]]]]]]]]].
  unfold ustate in *. rewrite E. simpl.
  assert (Hhi : (hi <= na)%nat) by (destruct rows; [rewrite L2' by auto; lia|apply L2; discriminate]).
  assert (El : lookup rows a = None).
  { destruct (lookup rows a) eqn:El; auto. assert (a < hi)%nat by (apply L3; congruence). lia. }
  rewrite L5, El. split; auto. rewrite skip_spec, L4, El.
  destruct (Nat.ltb_spec a na), (Nat.ltb_spec a hi); try lia. rewrite !andb_false_r. auto.
Qed.
Lemma dense_out na av ca U D :
  (forall j, (j < na)%nat -> av j = true -> ok j (ca j) (U j)) ->
  let r := dense na av (fun j => f j (ca j)) (U, D) in
  forall a, (na <= a)%nat -> fst r a = U a /\ snd r a = D a.
Proof.
  intros Hok r a Ha. destruct (dense_gen av ca 0 na U D) as [_ H]; [intros; apply Hok; auto; lia|].
  apply H. lia.
Qed.
End Traverse.

(** idco terms *)
Lemma co_fold terms av co : forall U D,
  let r := utility_from_data_co par hold terms av co (U, D) in
  forall a, fst r a = (if av a then oplus (U a) (linear_co terms a co par) else U a) /\
            forall p, snd r a p = D a p + (if av a then if hold p then 0 else coef_co terms a co p else 0).
Proof.
  induction terms as [|t terms IH]; intros U D r a.
  - unfold r. simpl. unfold linear_co, coef_co. simpl. rewrite oplus_0. split; [destruct (av a); auto|].
    intros p. destruct (av a), (hold p); lra.
  - unfold r, utility_from_data_co. cbn [fold_left]. unfold co_step at 2 4.
    assert (Hv : co_value co t = match c_data t with None => c_scale t | Some d => co d * c_scale t end).
    { unfold co_value. destruct (c_data t); ring. }
    rewrite <- Hv.
    destruct (av (c_alt t)) eqn:Ea.
    + destruct (IH (addU U (c_alt t) (co_value co t * par (c_par t)))
        (if hold (c_par t) then D else addD D (c_alt t) (c_par t) (co_value co t)) a) as [I1 I2].
      unfold utility_from_data_co in I1, I2. split.
      * rewrite I1. unfold addU. unfold linear_co. cbn [Rsum fold_right].
        fold (Rsum (fun t0 => if (c_alt t0 =? a)%nat then co_value co t0 * par (c_par t0) else 0) terms).
        destruct (Nat.eqb_spec (c_alt t) a) as [ <-|Hne].
        -- rewrite upd_eq, Ea. fold (oplus (U (c_alt t)) (co_value co t * par (c_par t))). apply oplus_plus.
        -- rewrite upd_neq by auto. rewrite Rplus_0_l. auto.
      * intros p. rewrite I2. unfold coef_co. cbn [Rsum fold_right].
        fold (Rsum (fun t0 => if (c_alt t0 =? a)%nat then if (c_par t0 =? p)%nat then co_value co t0 else 0 else 0) terms).
        destruct (hold (c_par t)) eqn:Eh.
        -- destruct (Nat.eqb_spec (c_alt t) a) as [ <-|Hne]; [|destruct (av a), (hold p); lra].
           rewrite Ea. destruct (Nat.eqb_spec (c_par t) p) as [ <-|Hp]; [rewrite Eh; lra|destruct (hold p); lra].
        -- unfold addD. destruct (Nat.eqb_spec (c_alt t) a) as [ <-|Hne].
           ++ rewrite upd_eq, Ea. destruct (Nat.eqb_spec (c_par t) p) as [ <-|Hp].
              ** rewrite upd_eq, Eh. lra.
              ** rewrite upd_neq by auto. destruct (hold p); lra.
           ++ rewrite upd_neq by auto. destruct (av a), (hold p); lra.
    + destruct (IH U D a) as [I1 I2]. unfold utility_from_data_co in I1, I2. split.
      * rewrite I1. unfold linear_co. cbn [Rsum fold_right].
        destruct (av a) eqn:Eaa; auto. destruct (Nat.eqb_spec (c_alt t) a) as [ <-|]; [congruence|].
        rewrite Rplus_0_l. auto.
      * intros p. rewrite I2. unfold coef_co. cbn [Rsum fold_right].
        destruct (av a) eqn:Eaa; auto. destruct (Nat.eqb_spec (c_alt t) a) as [ <-|]; [congruence|].
        rewrite Rplus_0_l. auto.
Qed.

(** the idca data row an alternative uses *)
Definition row_of (av : nat -> bool) (data : idca) (a : nat) : option (nat -> R) :=
  match data with
  | Dense ca => if av a then Some (ca a) else None
  | Sparse rows => lookup rows a
  end.
Definition data_ok (na : nat) (data : idca) : Prop :=
  match data with Dense _ => True | Sparse rows => sorted_rows 0 na rows end.
Definition size_ok (q : list term) (na : nat) (av : nat -> bool) (data : idca) : Prop :=
  q <> [] -> forall a x, row_of av data a = Some x -> (a < na)%nat -> size q x par <> 0.

Definition dq (q : list term) (qs : option nat) (x : nat -> R) (p : nat) : R :=
  match q with [] => 0 | _ =>
    (if hold p then 0 else qcoef q x p * q_scale_value par qs / size q x par ^ count q p)
     + match qs with Some s => if hold s then 0 else if (p =? s)%nat then ln (size q x par) else 0 | None => 0 end
  end.

Lemma utilities_closed na q qs ca co av data co_data :
  data_ok na data -> size_ok q na av data ->
  let r := utilities par hold na q qs ca co av data co_data in
  forall a, (a < na)%nat -> (av a = true <-> row_of av data a <> None) ->
    fst r a = match row_of av data a with
              | Some x => Some (total_utility q qs ca co a x co_data par) | None => None end /\
    forall p, snd r a p = match row_of av data a with
              | Some x => dq q qs x p + (if hold p then 0 else coef_ca ca x p + coef_co co a co_data p)
              | None => 0 end.
Proof.
  intros Hd Hs r a Ha Hav. unfold r, utilities.
  set (ok := fun (j : nat) (x : nat -> R) (u : option R) => q <> [] -> val (oplus u (size q x par)) <> 0).
  assert (Q : let rq := quantity_from_data_ca par hold na q qs av data (fun _ => Some 0, fun _ _ => 0) in
     forall b, (b < na)%nat -> 
     (forall x, row_of av data b = Some x -> fst rq b = gU_q q qs x (Some 0) /\ snd rq b = gD_q q qs x (Some 0) (fun _ => 0)) /\
     (row_of av data b = None -> snd rq b = fun _ => 0)).
  { intros rq b Hb. unfold rq, quantity_from_data_ca, row_of in *. destruct data as [dca|rows].
    - destruct (dense_spec (fun j x u => gU_q q qs x u) (fun j x u d => gD_q q qs x u d) ok
        (fun j x => q_alt par hold q qs j x)) with (na := na) (av := av) (ca := dca) (U := fun _ : nat => Some 0) (D := fun _ _ : nat => 0) (a := b) as [E1 E2]; auto.
      + intros j x U D Hok. apply q_alt_row. exact Hok.
      + intros j Hj Haj Hq. simpl. rewrite Rplus_0_l. apply (Hs Hq j); auto. simpl. rewrite Haj. auto.
      + rewrite E1, E2. destruct (av b); split; intros; try congruence; try discriminate.
        * injection H as <-. auto.
    - destruct (sparse_spec (fun j x u => gU_q q qs x u) (fun j x u d => gD_q q qs x u d) ok
        (fun j x => q_alt par hold q qs j x)) with (na := na) (skip := Some 0) (rows := rows) (U := fun _ : nat => Some 0) (D := fun _ _ : nat => 0) (a := b) as [E1 E2]; auto.
      + intros j x U D Hok. apply q_alt_row. exact Hok.
      + intros j x Hj Hq. simpl. rewrite Rplus_0_l. apply (Hs Hq j); auto.
        destruct (Nat.lt_ge_cases j na); auto. exfalso.
        clear -Hd Hj H. simpl in Hd. assert (Hgen : forall rows lo, sorted_rows lo na rows -> lookup rows j <> None -> (j < na)%nat).
        { induction rows0 as [|r rs IH]; simpl; intros lo Hs Hl; [congruence|].
          destruct (Nat.eqb_spec (fst r) j); [lia|]. destruct Hs. eapply IH; eauto. }
        assert (j < na)%nat by (eapply Hgen; eauto; congruence). lia.
      + rewrite E1, E2. destruct (lookup rows b) as [y|]; split; intros; try congruence; try discriminate.
        * injection H as <-. auto. }
  cbv zeta in Q. destruct (quantity_from_data_ca _ _ _ _ _ _ _ _) as [Uq Dq]. simpl in Q.
  assert (C : let rc := utility_from_data_ca par hold na ca av data (Uq, Dq) in
     (forall x, row_of av data a = Some x -> fst rc a = oplus (Uq a) (linear_ca ca x par) /\ snd rc a = gD_ca ca x (Dq a)) /\
     (row_of av data a = None -> fst rc a = None /\ snd rc a = Dq a)).
  { intros rc. unfold rc, utility_from_data_ca, row_of in *. destruct data as [dca|rows].
    - destruct (dense_spec (fun j x u => oplus u (linear_ca ca x par)) (fun j x u d => gD_ca ca x d) (fun _ _ _ => True)
        (fun j x => ca_alt par hold ca j x)) with (na := na) (av := av) (ca := dca) (U := Uq) (D := Dq) (a := a) as [E1 E2]; auto.
      + intros j x U D _. apply ca_alt_row.
      + rewrite E1, E2. destruct (av a); split; intros; try congruence; try discriminate; auto.
        * injection H as <-. auto.
    - destruct (sparse_spec (fun j x u => oplus u (linear_ca ca x par)) (fun j x u d => gD_ca ca x d) (fun _ _ _ => True)
        (fun j x => ca_alt par hold ca j x)) with (na := na) (skip := @None R) (rows := rows) (U := Uq) (D := Dq) (a := a) as [E1 E2]; auto.
      + intros j x U D _. apply ca_alt_row.
      + rewrite E1, E2. destruct (lookup rows a) as [y|]; split; intros; try congruence; try discriminate; auto.
        * injection H as <-. auto. }
  cbv zeta in C. destruct (utility_from_data_ca _ _ _ _ _ _ _) as [Uc Dc]. simpl in C.
  destruct (co_fold co av co_data Uc Dc a) as [F1 F2]. cbv zeta in F1, F2. rewrite F1.
  destruct (row_of av data a) as [x|] eqn:Ex.
  - assert (Eav : av a = true) by (apply Hav; congruence). rewrite Eav in *.
    destruct C as [C _]. destruct (C x eq_refl) as [C1 C2].
    destruct (Q a Ha) as [Q1 _]. destruct (Q1 x Ex) as [Q2 Q3].
    split.
    + rewrite C1, Q2, oplus_plus. unfold gU_q, total_utility, log_size. destruct q as [|t q].
      * simpl. f_equal. lra.
      * simpl oplus. f_equal. rewrite Rplus_0_l. unfold q_scale_value. destruct qs; simpl; lra.
    + intros p. rewrite F2, C2, Q3. unfold gD_ca, gD_q, dq. destruct q as [|t q].
      * destruct (hold p); lra.
      * cbv zeta. cbn [oplus val]. rewrite !Rplus_0_l. set (MM := match qs with Some _ => _ | None => _ end). destruct (hold p); lra.
  - assert (Eav : av a = false) by (apply not_true_is_false; rewrite Hav; congruence). rewrite Eav in *.
    destruct C as [_ C]. destruct (C eq_refl) as [C1 C2]. rewrite C1. split; auto.
    intros p. rewrite F2, C2. destruct (Q a Ha) as [_ Q2]. rewrite (Q2 Ex). lra.
Qed.
End U.
