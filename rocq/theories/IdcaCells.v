(** Where the entries of a row end up. *)
From Verif Require Export IdcaRead.
From Coq Require Import Lqa Permutation.
Open Scope nat_scope.

Section Reading.
Variables (junk : Z) (o : options) (t : table) (ds : dataset) (alts : list Z) (codes0 : list (nat * nat)).
Hypothesis P : proper t.
Hypothesis R : reading junk o t ds alts codes0.
Let nc := length (d_cases ds).
Let na := length (d_alts ds).
Let at_ := place codes0.

Lemma cases_nodup : NoDup (d_cases ds).
Proof. rewrite (r_cases _ _ _ _ _ _ R), used_levels_from. apply used_from_nodup, (p_cases t P). Qed.
Lemma alts_nodup : NoDup (d_alts ds).
Proof. rewrite (r_dalts _ _ _ _ _ _ R), used_levels_from. apply used_from_nodup, (r_alts _ _ _ _ _ _ R). Qed.
Lemma place_row : forall r case alt, row_is t r case alt ->
  exists i j code, nth_error at_ r = Some (i, j) /\ nth_error (d_cases ds) i = Some case /\
    nth_error (d_alts ds) j = Some code /\ stands_for t ds alt code.
Proof.
  intros r case alt (c & a & H1 & H2 & H3).
  destruct (r_rows _ _ _ _ _ _ R r c a H1) as (b & B1 & B2 & B3).
  exists (new_code (map fst codes0) c), (new_code (map snd codes0) b).
  assert (Ic : In c (map fst codes0)) by (apply (in_map fst _ (c, b)); eapply nth_error_In; eauto).
  assert (Ib : In b (map snd codes0)) by (apply (in_map snd _ (c, b)); eapply nth_error_In; eauto).
  assert (Lc : c < length (t_cases t)) by (apply nth_error_Some; congruence).
  destruct (nth_error alts b) as [code|] eqn:NB; [|apply nth_error_None in NB; lia]. exists code.
  assert (J : nth_error (d_alts ds) (new_code (map snd codes0) b) = Some code)
    by (rewrite (r_dalts _ _ _ _ _ _ R), used_nth; auto).
  repeat split; auto.
  - now apply place_nth.
  - now rewrite (r_cases _ _ _ _ _ _ R), used_nth.
  - unfold stands_for, labels in *. destruct (t_alts t) as [l|l].
    + destruct B3 as [-> ->]. rewrite nth_error_map, NB in H3. now injection H3 as <-.
    + destruct B3 as (ns & N1 & N2 & N3 & N4 & N5). exists (new_code (map snd codes0) b), (map Some ns).
      repeat split; auto. rewrite used_levels_from in N5. apply used_from_all in N5 as [_ N5].
      unfold new_code. rewrite N5 by lia. now rewrite nth_error_map, N2, H3.
Qed.
Lemma code_unique : forall alt c1 c2, In c1 (d_alts ds) -> In c2 (d_alts ds) ->
  (exists r case, row_is t r case alt) -> stands_for t ds alt c1 -> stands_for t ds alt c2 -> c1 = c2.
Proof.
  intros alt c1 c2 I1 I2 (r & case & c & a & H1 & _) S1 S2. unfold stands_for in *.
  destruct (r_rows _ _ _ _ _ _ R r c a H1) as (b & B1 & B2 & B3).
  destruct (t_alts t) as [l|l]; [congruence|].
  destruct B3 as (ns & N1 & N2 & N3 & N4 & N5).
  destruct S1 as (j1 & n1 & A1 & E1 & F1), S2 as (j2 & n2 & A2 & E2 & F2).
  assert (n1 = map Some ns) by congruence. assert (n2 = map Some ns) by congruence. subst n1 n2.
  assert (j1 = j2); [|congruence].
  apply (proj1 (NoDup_nth_error ns) N3).
  - rewrite <- (map_length Some). apply nth_error_Some. congruence.
  - rewrite nth_error_map in F1, F2. destruct (nth_error ns j1), (nth_error ns j2); cbn in *; congruence.
Qed.
(** Positions in the grid and pairs in the table. *)
Lemma row_of_place : forall r i j, nth_error at_ r = Some (i, j) -> exists case alt code, row_is t r case alt /\
   nth_error (d_cases ds) i = Some case /\ nth_error (d_alts ds) j = Some code /\ stands_for t ds alt code.
Proof.
  intros r i j H.
  assert (L : r < length (t_codes t)).
  { rewrite <- (r_len _ _ _ _ _ _ R), <- place_len. apply nth_error_Some. unfold at_ in H. congruence. }
  destruct (nth_error (t_codes t) r) as [[c oa]|] eqn:E; [|apply nth_error_None in E; lia].
  destruct (p_codes t P c oa (nth_error_In _ _ E)) as (Lc & a & -> & La).
  destruct (nth_error (t_cases t) c) as [case|] eqn:Ec; [|apply nth_error_None in Ec; lia].
  destruct (nth_error (labels t) a) as [alt|] eqn:Ea; [|apply nth_error_None in Ea; lia].
  assert (RI : row_is t r case alt) by (exists c, a; auto).
  destruct (place_row r case alt RI) as (i' & j' & code & A & B & C & D).
  assert (i' = i /\ j' = j) as [-> ->] by (rewrite A in H; injection H; auto). eauto 8.
Qed.
Lemma paired_iff : forall i j case code, nth_error (d_cases ds) i = Some case -> nth_error (d_alts ds) j = Some code ->
  (paired t ds case code <-> In (i, j) at_).
Proof.
  intros i j case code Hi Hj. split.
  - intros (r & alt & RI & S). destruct (place_row r case alt RI) as (i' & j' & code' & A & B & C & D).
    assert (code' = code) by (apply (code_unique alt); eauto using nth_error_In). subst code'.
    assert (i' = i) by (eapply (proj1 (NoDup_nth_error _) cases_nodup); [apply nth_error_Some; congruence|congruence]).
    assert (j' = j) by (eapply (proj1 (NoDup_nth_error _) alts_nodup); [apply nth_error_Some; congruence|congruence]).
    subst. eapply nth_error_In; eauto.
  - intros I. apply In_nth_error in I as (r & H). destruct (row_of_place r i j H) as (case' & alt & code' & A & B & C & D).
    exists r, alt. assert (case' = case) by congruence. assert (code' = code) by congruence. now subst.
Qed.
Lemma at_nodup : NoDup at_.
Proof. apply place_nodup, (r_nodup _ _ _ _ _ _ R). Qed.
Lemma at_bound : forall i j, In (i, j) at_ -> i < nc /\ j < na.
Proof.
  intros i j I. apply In_nth_error in I as (r & H). destruct (row_of_place r i j H) as (case' & alt & code' & A & B & C & D).
  split; apply nth_error_Some; congruence.
Qed.
Lemma at_len : length at_ = length (t_codes t).
Proof. unfold at_. now rewrite place_len, (r_len _ _ _ _ _ _ R). Qed.
(** Without gaps every pair has a row. *)
Lemma dense_all : sparse nc na at_ = false -> forall i j, i < nc -> j < na -> In (i, j) at_.
Proof.
  intros S i j Hi Hj. unfold sparse in S. apply Nat.ltb_ge in S.
  assert (I : incl (list_prod (seq 0 nc) (seq 0 na)) at_).
  { apply NoDup_length_incl; [apply at_nodup| |].
    - rewrite prod_length, !seq_length. lia.
    - intros [x y] H. apply at_bound in H. apply in_prod; apply in_seq; lia. }
  apply I. apply in_prod; apply in_seq; lia.
Qed.
Lemma written_iff : forall vals i j, length vals = length at_ ->
  ((exists v, last_written at_ vals i j = Some v) <-> In (i, j) at_).
Proof.
  intros vals i j L. split.
  - intros (v & H). apply last_written_row in H as (r & A & _). eapply nth_error_In; eauto.
  - intros I. apply In_nth_error in I as (r & H). eapply last_written_some; eauto.
Qed.
End Reading.

(** ** The entries of one column *)
Definition first_cell (nc na : nat) (at_ : list (nat * nat)) (d : dtype) (vals : list cell) (i j : nat) : cell :=
  if sparse nc na at_ then match last_written at_ vals i j with Some v => cast 0 (promote d) v | None => CNaN end
  else match last_written at_ vals i j with Some v => v | None => CI 0 end.
Lemma to_dense_grid : forall nc na at_ d vals,
  to_dense nc na at_ d vals =
  Dense (if sparse nc na at_ then promote d else d) (grid nc na (first_cell nc na at_ d vals)).
Proof. intros. unfold to_dense, first_cell, sparse. destruct (length at_ <? nc * na); reflexivity. Qed.
(** What an array may hold before its type is restored. *)
Definition held (d : dtype) (c : cell) : Prop :=
  match d, c with
  | (DInt | DBool), (CI _ | CNaN) => True
  | DInt, CF q => exists z, q = inject_Z z
  | DBool, CB _ => True
  | DFloat, (CF _ | CI _ | CNaN) => True
  | DObj, _ => True
  | _, _ => False
  end.
Lemma fits_last : forall at_ vals d i j v, Forall (fits d) vals -> last_written at_ vals i j = Some v -> fits d v.
Proof.
  intros at_ vals d i j v F H. apply last_written_row in H as (r & _ & N). rewrite Forall_forall in F. eapply F, nth_error_In; eauto.
Qed.
Lemma first_held : forall nc na at_ d vals i j, d <> DInt8 -> Forall (fits d) vals ->
  held d (first_cell nc na at_ d vals i j).
Proof.
  intros nc na at_ d vals i j ND F. unfold first_cell. destruct (sparse nc na at_).
  - destruct (last_written at_ vals i j) eqn:E; [|now destruct d].
    apply (fits_last _ _ d) in E; auto. destruct d, c; cbn in *; try contradiction; auto; try congruence. now exists z.
  - destruct (last_written at_ vals i j) eqn:E; [|now destruct d].
    apply (fits_last _ _ d) in E; auto. destruct d, c; cbn in *; try contradiction; auto.
Qed.
Lemma held_cast : forall junk d c q, d <> DObj -> d <> DBool \/ (exists b, c = CB b) \/ c = CI 0 -> held d c -> num c = Some q ->
  exists q', num (cast junk d c) = Some q' /\ (q' == q)%Q /\ fits d (cast junk d c) /\
    (d = DFloat \/ exists z, q' = inject_Z z).
Proof.
  intros junk d c q NO NB H N. destruct d, c; cbn in *; try contradiction; try discriminate; try congruence; injection N as <-.
  - exists (inject_Z z). repeat split; auto; try reflexivity. right; eauto.
  - destruct H as (z & ->). exists (inject_Z z). cbn. rewrite Z.quot_1_r. repeat split; auto; try reflexivity. right; eauto.
  - exists (inject_Z z). repeat split; auto; reflexivity.
  - exists q0. repeat split; auto; reflexivity.
  - destruct NB as [NB|[(b & E)|E]]; try congruence. injection E as ->. exists 0%Q. cbn. repeat split; auto; try reflexivity. right. now exists 0%Z.
  - eexists. split; [reflexivity|]. repeat split; auto; try reflexivity. right. destruct b; [now exists 1%Z|now exists 0%Z].
Qed.
Lemma near_integers : forall (x y : Z) n, (Z.of_nat n < 10 ^ 18)%Z ->
  ((inject_Z x - inject_Z y) * (inject_Z x - inject_Z y) <= (4 * Z.of_nat n # 1) * (1 # 10 ^ 20))%Q -> x = y.
Proof.
  intros x y n L H. change (10 ^ 18)%Z with 1000000000000000000%Z in L.
  assert (H2 : ((x - y) * (x - y) * 100000000000000000000 <= 4 * Z.of_nat n)%Z).
  { unfold Qle in H. change (Qden ((4 * Z.of_nat n # 1) * (1 # 10 ^ 20))) with (100000000000000000000)%positive in H.
    cbn [Qnum Qden Qminus Qplus Qopp Qmult inject_Z] in H. rewrite Pos.mul_1_r in H. lia. }
  destruct (Z.eq_dec x y) as [|NE]; auto. exfalso. assert (1 <= (x - y) * (x - y))%Z by nia. lia.
Qed.
Lemma column_cell : forall junk (crack : bool) nc na at_ d vals r i j v, NoDup at_ -> length vals = length at_ ->
  Forall (fits d) vals -> nth_error at_ r = Some (i, j) -> nth_error vals r = Some v -> i < nc -> j < na ->
  (Z.of_nat na < 10 ^ 18)%Z -> crack = false \/ d <> DFloat \/ v <> CNaN ->
  exists v', cell_at (column_var junk crack nc na at_ d vals) i j = Some v' /\ fits d v' /\
    (crack = false -> v' = v) /\ nearly d na v v'.
Proof.
  intros junk crack nc na at_ d vals r i j v N L F A V Hi Hj BIG CR.
  assert (FV : fits d v) by (rewrite Forall_forall in F; eapply F, nth_error_In; eauto).
  assert (ND : d <> DInt8) by (destruct d, v; cbn in FV; congruence).
  assert (LW : last_written at_ vals i j = Some v) by (eapply last_written_nodup; eauto).
  unfold column_var. rewrite to_dense_grid. set (g := first_cell nc na at_ d vals).
  assert (EV : cast junk d (g i j) = v).
  { unfold g, first_cell. rewrite LW. destruct (sparse nc na at_); [now apply there_and_back|now apply cast_own]. }
  assert (PLAIN : forall d1, exists v', cell_at (retype junk d (Dense d1 (grid nc na g))) i j = Some v' /\ fits d v' /\
    (crack = false -> v' = v) /\ nearly d na v v').
  { intros d1. cbn [retype]. rewrite grid_map, grid_cell by auto. eexists. split; [reflexivity|].
    rewrite EV. repeat split; auto. unfold nearly. destruct d; try apply same_refl. left. apply same_refl. }
  destruct crack; [|apply PLAIN].
  set (d1 := if sparse nc na at_ then promote d else d).
  unfold dissolve. destruct (match d1 with DObj => true | _ => false end) eqn:OB.
  { destruct d1; try discriminate. apply PLAIN. }
  assert (E1 : (match d1 with DObj => Dense d1 (grid nc na g) | _ => if dissolves (grid nc na g) then PerCase d1 (map least (grid nc na g)) else Dense d1 (grid nc na g) end)
     = if dissolves (grid nc na g) then PerCase d1 (map least (grid nc na g)) else Dense d1 (grid nc na g)) by (destruct d1; auto; discriminate).
  rewrite E1. clear E1. destruct (dissolves (grid nc na g)) eqn:D; [|apply PLAIN].
  assert (NO : d <> DObj) by (intros ->; unfold d1 in OB; destruct (sparse nc na at_); discriminate).
  assert (NUM : exists q, num (g i j) = Some q).
  { destruct CR as [CR|CR]; [discriminate|]. unfold g, first_cell. rewrite LW.
    destruct d, v; cbn in FV; try contradiction; try congruence; destruct (sparse nc na at_); cbn; eauto.
    all: destruct CR; congruence. }
  destruct NUM as (q & NUM).
  set (row := map (g i) (seq 0 na)).
  assert (Irow : In row (grid nc na g)) by (apply in_map_iff; exists i; split; auto; apply in_seq; lia).
  assert (Icell : In (g i j) row) by (apply in_map; apply in_seq; lia).
  destruct (dissolve_spec (grid nc na g) row (g i j) D Irow Icell q NUM) as (m & Il & Nl & B).
  assert (LEN : length row = na) by (unfold row; now rewrite map_length, seq_length). rewrite LEN in B.
  cbn [retype cell_at]. rewrite map_map. unfold grid. rewrite map_map, nth_seq_map by auto. fold row.
  eexists. split; [reflexivity|].
  (* every entry of the row is of the held kind *)
  assert (KIND : forall c, In c row -> held d c /\ (d <> DBool \/ (exists b, c = CB b) \/ c = CI 0)).
  { intros c Ic. apply in_map_iff in Ic as (j' & <- & _). split; [now apply first_held|].
    destruct (match d with DBool => true | _ => false end) eqn:DB; [|left; intros ->; discriminate].
    right. destruct d; try discriminate. unfold d1 in OB. destruct (sparse nc na at_) eqn:SP; [discriminate|].
    unfold g, first_cell. rewrite SP. destruct (last_written at_ vals i j') eqn:W; auto.
    apply (fits_last _ _ DBool) in W; auto. destruct c; cbn in W; try contradiction. left; eauto. }
  destruct (KIND _ Icell) as [K1 K2]. destruct (KIND _ Il) as [K3 K4].
  destruct (held_cast junk d (g i j) q NO K2 K1 NUM) as (q' & Q1 & Q2 & Q3 & Q4). rewrite EV in *.
  destruct (held_cast junk d (least row) m NO K4 K3 Nl) as (m' & M1 & M2 & M3 & M4).
  repeat split; auto; [discriminate|].
  assert (B' : ((q' - m') * (q' - m') <= (4 * Z.of_nat na # 1) * (1 # 10 ^ 20))%Q) by (rewrite Q2, M2; exact B).
  unfold nearly. destruct (match d with DFloat => true | _ => false end) eqn:DF.
  - destruct d; try discriminate. right. exists q', m'. auto.
  - assert (S : same v (cast junk d (least row))).
    { destruct Q4 as [->|(z & ->)]; [discriminate|]. destruct M4 as [->|(z' & ->)]; [discriminate|].
      apply near_integers in B'; auto. subst z'. unfold same. rewrite Q1, M1. reflexivity. }
    destruct d; auto.
Qed.
