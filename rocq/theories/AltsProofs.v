From Coq Require Import Permutation Relations.
From Verif Require Import TreeModel TreeSpec TreeProofs TreeLogitProps.
From Verif Require Import LogitModel LogitSpec LogitProofs LogitRun LogitProps.
From Verif Require Import UtilityModel UtilitySpec UtilityProofs.
From Verif Require Export AltsSpec.
Open Scope R_scope.

(** ---------- lists ---------- *)
Lemma carried_nth E : forall D k c a, NoDup E -> nth_error E k = Some c -> nth_error D k = Some a ->
  carried E D c = a.
Proof.
  induction E as [|e E IH]; intros D k c a HN Hk Ha; [destruct k; discriminate|].
  inversion HN as [|? ? H1 H2]; subst.
  destruct D as [|x D]; [destruct k; discriminate|]. simpl.
  destruct k as [|k]; simpl in *.
  - injection Hk as ->. injection Ha as ->. rewrite Z.eqb_refl. auto.
  - destruct (Z.eqb_spec e c) as [ ->|]; [|eapply IH; eauto].
    exfalso. apply H1. eapply nth_error_In; eauto.
Qed.
Lemma nodup_app_left {A} (l1 l2 : list A) : NoDup (l1 ++ l2) -> NoDup l1.
Proof.
  induction l1 as [|x l1 IH]; simpl; intros H; [constructor|]. inversion H as [|? ? H1 H2]; subst.
  constructor; auto. intros Hx. apply H1. apply in_app_iff. auto.
Qed.
Lemma carried_same E c : carried E E c = c.
Proof. induction E as [|e E IH]; simpl; auto. destruct (Z.eqb_spec e c); auto. Qed.
Lemma get_loc_nth l a : forall i, get_loc l a = Some i -> nth_error l i = Some a.
Proof.
  induction l as [|x l IH]; simpl; intros i H; [discriminate|].
  destruct (Z.eqb_spec x a) as [ ->|].
  - injection H as <-. auto.
  - destruct (get_loc l a) as [j|]; [|discriminate]. injection H as <-. simpl. auto.
Qed.
Lemma get_loc_in l a : In a l -> exists i, get_loc l a = Some i.
Proof.
  induction l as [|x l IH]; simpl; [tauto|]. intros [ ->|H].
  - rewrite Z.eqb_refl. eauto.
  - destruct (Z.eqb_spec x a); eauto. destruct (IH H) as [i ->]. eauto.
Qed.
Lemma co_slots_ok alts fs : (forall f, In f fs -> In (fst f) alts) -> exists co, co_slots alts fs = Some co.
Proof.
  induction fs as [|[a f] fs IH]; simpl; intros H; eauto.
  destruct (get_loc_in alts a) as [i ->]; [apply (H (a, f)); auto|].
  destruct IH as [co ->]; eauto.
Qed.
Lemma co_slots_fail alts fs : (exists f, In f fs /\ ~ In (fst f) alts) -> co_slots alts fs = None.
Proof.
  induction fs as [|[a f] fs IH]; simpl; intros [f0 [H1 H2]]; [tauto|].
  destruct (get_loc alts a) as [i|] eqn:E; auto.
  destruct H1 as [<-|H1].
  - exfalso. apply H2. simpl. eapply nth_error_In. eapply get_loc_nth; eauto.
  - rewrite IH; eauto.
Qed.

Lemma linear_co_app a z par l1 l2 : linear_co (l1 ++ l2) a z par = linear_co l1 a z par + linear_co l2 a z par.
Proof. unfold linear_co. apply Rsum_app. Qed.
Lemma linear_co_slots alts z par k a : NoDup alts -> nth_error alts k = Some a ->
  forall fs co, co_slots alts fs = Some co ->
  linear_co co k z par = Rsum (fun f => if (fst f =? a)%Z
                 then Rsum (fun t => match t with (s, p, x) =>
                        s * match x with Some j => z j | None => 1 end * par p end) (snd f)
                 else 0) fs.
Proof.
  intros HN Hk. induction fs as [|[b f] fs IH]; cbn [co_slots Rsum fold_right fst snd]; intros co H.
  - injection H as <-. auto.
  - destruct (get_loc alts b) as [i|] eqn:Ei; [|discriminate].
    destruct (co_slots alts fs) as [rest|]; [|discriminate]. injection H as <-.
    rewrite linear_co_app. rewrite (IH rest eq_refl). fold (@Rsum (Z * list uterm)).
    unfold Rsum at 2. f_equal.
    assert (Hi := get_loc_nth _ _ _ Ei).
    assert (Hiff : (i =? k)%nat = (b =? a)%Z).
    { destruct (Nat.eqb_spec i k) as [ ->|Hne], (Z.eqb_spec b a) as [ ->|Hne2]; auto; exfalso.
      - rewrite Hk in Hi. congruence.
      - apply Hne. eapply (nth_error_NoDup_eq alts); eauto. }
    unfold linear_co. rewrite Rsum_map. rewrite <- Hiff.
    destruct (i =? k)%nat eqn:E.
    + apply Rsum_ext. intros [[s p] x] _. cbn [c_alt c_par]. rewrite E. unfold co_value. simpl. destruct x; ring.
    + apply Rsum_zero. intros [[s p] x] _. cbn [c_alt c_par]. rewrite E. auto.
Qed.

Lemma in_order_nth {A} alts k a (dflt : A) f : nth_error alts k = Some a -> in_order alts dflt f k = f a.
Proof. intros H. unfold in_order. rewrite H. auto. Qed.
Lemma avail_nth alts d k a : nth_error alts k = Some a -> avail_array alts (d_av d) k = available d a.
Proof.
  intros H. unfold avail_array, available. destruct (d_av d); auto; rewrite (in_order_nth _ _ a) by auto; auto.
Qed.
Lemma choice_nth alts d ch k a : choice_array alts (d_ch d) = Some ch -> nth_error alts k = Some a -> ch k = chosen d a.
Proof.
  intros Hc H. unfold choice_array in Hc. unfold chosen. destruct (d_ch d) as [t|c|l].
  - injection Hc as <-. apply in_order_nth; auto.
  - injection Hc as <-. rewrite (in_order_nth _ _ a); auto.
  - destruct (forallb _ _); [|discriminate]. injection Hc as <-. rewrite (in_order_nth _ _ a); auto.
Qed.

(** ---------- the reference determines utilities and probabilities ---------- *)
Lemma oexp_ext mu (x y : option R) : x = y -> oexp mu x = oexp mu y.
Proof. congruence. Qed.
Lemma children_of_link g c d : In d (children_of g c) <-> link g c d.
Proof. apply (succs_link g c d). Qed.
Lemma leaf_dec g c : In c (gnodes g) -> is_leaf g c \/ ~ is_leaf g c.
Proof.
  intros H. destruct (in_dec Z.eq_dec c (leaves g)) as [Hi|Hi].
  - left. apply in_leaves; auto.
  - right. intros Hl. apply Hi. apply in_leaves; auto.
Qed.
Lemma opt_all (V : Z -> option R) l : (exists d, In d l /\ V d <> None) \/ (forall d, In d l -> V d = None).
Proof.
  induction l as [|x l [[d [H1 H2]]|H]].
  - right. intros d [].
  - left. exists d. simpl; auto.
  - destruct (V x) eqn:E.
    + left. exists x. split; simpl; auto. congruence.
    + right. intros d [ <-|Hd]; auto.
Qed.
Section Unique.
Variable g : graph.
Hypothesis G : nesting g.
Variable mu : Z -> R.
Variable u u' V V' : Z -> option R.
Variable P P' : Z -> R.
Hypothesis HV : nested g mu u V P.
Hypothesis HV' : nested g mu u' V' P'.
Hypothesis Hu : forall c, is_leaf g c -> u c = u' c.

Lemma unique_V : forall c, In c (gnodes g) -> V c = V' c.
Proof.
  destruct G as [W A S1 S2 RR CH SP].
  destruct (standard_sort_ok g W A S1 S2) as [nests [H1 [H2 [H3 H4]]]].
  set (std := elementals g ++ nests) in *.
  assert (HN : NoDup std) by (eapply Permutation_NoDup; [symmetry; exact H3|apply W]).
  assert (Hgen : forall n c, (slot std c < n)%nat -> In c (gnodes g) -> V c = V' c).
  { induction n as [|n IH]; intros c Hn Hc; [lia|].
    assert (Hkid : forall d, link g c d -> V d = V' d).
    { intros d Hd. apply IH.
      - assert (Hs := slot_before std d c HN (H4 c d Hd)). lia.
      - destruct Hd as [e [He [_ <-]]]. apply W; auto. }
    destruct (leaf_dec g c Hc) as [Hl|Hl].
    - rewrite (nd_leaf _ _ _ _ _ HV c Hl), (nd_leaf _ _ _ _ _ HV' c Hl). auto.
    - destruct (opt_all V (children_of g c)) as [[d [Hd Hf]]|Hnone].
      + apply children_of_link in Hd.
        rewrite (nd_some _ _ _ _ _ HV c Hc) by eauto.
        rewrite (nd_some _ _ _ _ _ HV' c Hc) by (exists d; split; auto; rewrite <- Hkid; auto).
        f_equal. f_equal. f_equal. apply Rsum_ext. intros e He. apply oexp_ext. apply Hkid.
        apply children_of_link; auto.
      + rewrite (nd_none _ _ _ _ _ HV c Hc Hl).
        * rewrite (nd_none _ _ _ _ _ HV' c Hc Hl); auto.
          intros d Hd. rewrite <- Hkid by auto. apply Hnone. apply children_of_link; auto.
        * intros d Hd. apply Hnone. apply children_of_link; auto. }
  intros c Hc. apply (Hgen (S (slot std c)) c); auto.
Qed.
Lemma unique_P : forall c, In c (gnodes g) -> P c = P' c.
Proof.
  assert (EV := unique_V).
  assert (Hstep : forall c d, link g c d -> P c = P' c -> P d = P' d).
  { intros c d Hl E. assert (Hl2 : forall e, link g c e -> V e = V' e).
    { intros e [x [Hx [_ <-]]]. apply EV. apply G; auto. }
    rewrite (nd_child _ _ _ _ _ HV c d Hl), (nd_child _ _ _ _ _ HV' c d Hl), E, (Hl2 d Hl). do 2 f_equal.
    apply Rsum_ext. intros e He. apply oexp_ext. apply Hl2. apply children_of_link; auto. }
  assert (Hb : forall c d, below g c d -> P c = P' c -> P d = P' d).
  { intros c d Hb. induction Hb; eauto. }
  assert (Hr : P (groot g) = P' (groot g)) by (rewrite (nd_root _ _ _ _ _ HV), (nd_root _ _ _ _ _ HV'); auto).
  intros c Hc. destruct (Z.eq_dec c (groot g)) as [ ->|Hne]; auto.
  apply (Hb (groot g)); auto. apply (ng_rooted g G); auto.
Qed.
End Unique.

(** ---------- the evaluation ---------- *)
Section Eval.
Variable m : settings.
Variable d : case.
Variable par : nat -> R.
Variable hold : nat -> bool.
Variable lp0 : nat -> option R.
Variable P0 : nat -> R.
Notation g := (s_graph m).
Notation alts := (prepared_alts (s_graph m) d).
Hypothesis G : nesting g.
Hypothesis HM : positive_mu m par.
Hypothesis HD : NoDup alts.
Hypothesis HZ : sizes_ok m d par alts.

Lemma evaluate_some : keys_ok m d alts -> length alts = length (elementals g) ->
  exists ans, evaluate m d par hold lp0 P0 = Some ans.
Proof.
  intros [K1 K2] HL. unfold evaluate.
  destruct (standard_sort_ok g (ng_wf _ G) (ng_acyclic _ G) (ng_sugg _ G) (ng_sugg_in _ G)) as [nests [H1 _]].
  rewrite H1. destruct (co_slots_ok alts (s_co m) K1) as [co ->].
  assert (Hc : exists ch, choice_array alts (d_ch d) = Some ch).
  { unfold choice_array. destruct (d_ch d) as [t|c|l]; eauto.
    replace (forallb _ _) with true; eauto. symmetry. apply forallb_forall. intros a Ha.
    specialize (K2 a Ha). destruct (dict_get l a); congruence. }
  destruct Hc as [ch ->]. rewrite HL, Nat.eqb_refl. eauto.
Qed.

Variable ans : answer.
Hypothesis HE : evaluate m d par hold lp0 P0 = Some ans.

Lemma eval_inv : exists std co ch nests,
  standard_sort g = Some std /\ co_slots alts (s_co m) = Some co /\
  choice_array alts (d_ch d) = Some ch /\ length alts = length (elementals g) /\
  std = elementals g ++ nests /\
  a_labels ans = std /\
  a_result ans = master (model_slots g std (fun k => match nth_error std k with Some c => s_mu m c | None => None end))
      par hold (s_q m) (s_qs m) (s_ca m) co (avail_array alts (d_av d))
             (Dense (fun k => in_order alts (fun _ => 0) (d_ca d) k)) (d_co d) ch (d_wt d) lp0 P0.
Proof.
  unfold evaluate in HE.
  destruct (standard_sort g) as [std|] eqn:E1; [|discriminate].
  destruct (co_slots _ _) as [co|] eqn:E2; [|discriminate].
  destruct (choice_array _ _) as [ch|] eqn:E3; [|discriminate].
  destruct (Nat.eqb_spec (length alts) (length (elementals g))) as [E4|]; [|discriminate].
  destruct (std_facts g std (ng_wf _ G) (ng_acyclic _ G) (ng_sugg _ G) (ng_sugg_in _ G) E1 (ng_rooted _ G)) as [nests [E5 _]].
  exists std, co, ch, nests. injection HE as <-. simpl. auto 10.
Qed.

Notation E := (elementals (s_graph m)).
Notation U' := (fun c => ext_utility m d par (carried (elementals (s_graph m)) alts c)).

Lemma eval_nested :
  nested g (node_mu m par) U' (column ans r_utility) (column ans r_prob) /\
  ((forall c, is_leaf g c -> chosen d (carried E alts c) <> 0 -> available d (carried E alts c) = true) ->
   r_loglike (a_result ans) =
     Some (d_wt d * Rsum (fun c => chosen d (carried E alts c) * ln (column ans r_prob c)) E)) /\
  ((exists c, is_leaf g c /\ chosen d (carried E alts c) <> 0 /\ available d (carried E alts c) = false) ->
   r_loglike (a_result ans) = None).
Proof.
  destruct eval_inv as [std [co [ch [nests [Hs [Hco [Hch [Hlen [Hstd [HA HR]]]]]]]]]].
  unfold column. rewrite HA, HR. clear HA HR HE.
  destruct G as [W A S1 S2 RR CH SP].
  set (mus := fun k => match nth_error std k with Some c => s_mu m c | None => None end) in *.
  destruct (std_facts g std W A S1 S2 Hs RR) as [nests' [E1 [HLv [HP [HN [HB [l HRt]]]]]]].
  assert (T := bridge_tree g std mus W A S1 S2 Hs RR CH SP).
  set (st := model_slots g std mus) in *.
  assert (Ena : n_alts st = length E) by (unfold st, model_slots; destruct (node_slot_arrays g std) as [[n0 start] num]; auto).
  assert (Enn : n_nodes st = length std) by (unfold st, model_slots; destruct (node_slot_arrays g std) as [[n0 start] num]; auto).
  assert (Emu : forall k c, nth_error std k = Some c -> (n_alts st <= k)%nat -> mu_of st par k = node_mu m par c).
  { intros k c Hk Hge. unfold mu_of, node_mu.
    replace (mu_slots st (k - n_alts st)) with (mus k).
    - unfold mus. rewrite Hk. auto.
    - unfold st, model_slots in *. destruct (node_slot_arrays g std) as [[n0 start] num]. simpl in *.
      f_equal. lia. }
  assert (HEN : NoDup E).
  { rewrite Hstd in HN. eapply nodup_app_left; eauto. }
  assert (Hslot : forall c, In c (gnodes g) -> nth_error std (slot std c) = Some c).
  { intros c Hc. apply nth_slot; auto. eapply Permutation_in; [symmetry; exact HP|auto]. }
  assert (Hleaf : forall c, is_leaf g c -> exists a, (slot std c < n_alts st)%nat /\ nth_error E (slot std c) = Some c /\
      nth_error alts (slot std c) = Some a /\ carried E alts c = a).
  { intros c Hc. apply in_leaves in Hc. apply (Permutation_in _ (Permutation_sym HLv)) in Hc.
    apply In_nth_error in Hc. destruct Hc as [i Hi].
    assert (Hi2 : (i < length E)%nat) by (apply nth_error_Some; congruence).
    assert (Hi3 : slot std c = i) by (apply slot_nth; auto; rewrite Hstd, nth_error_app1; auto).
    destruct (nth_error alts i) as [a|] eqn:Ea; [|apply nth_error_None in Ea; lia].
    exists a. rewrite Hi3, Ena. split; auto. split; auto. split; auto. eapply carried_nth; eauto. }
  assert (Hnest : forall c, In c (gnodes g) -> ~ is_leaf g c -> (n_alts st <= slot std c < n_nodes st)%nat).
  { intros c Hc Hl. assert (Hk := Hslot c Hc). split.
    - destruct (Nat.lt_ge_cases (slot std c) (n_alts st)) as [Hlt|]; auto. exfalso. apply Hl.
      assert (Hk' : nth_error (E ++ nests) (slot std c) = Some c) by (rewrite <- Hstd; exact Hk).
      rewrite nth_error_app1 in Hk' by lia. apply nth_error_In in Hk'.
      apply in_leaves. eapply Permutation_in; eauto.
    - rewrite Enn. apply nth_error_Some. congruence. }
  assert (Hnl : forall c x, link g c x -> In c (gnodes g) /\ ~ is_leaf g c).
  { intros c x Hl. split; [destruct Hl as [e [He [<- _]]]; apply W; auto|]. intros [_ H]. apply (H x); auto. }
  set (av := avail_array alts (d_av d)) in *.
  set (ca := fun k => in_order alts (fun _ : nat => 0) (d_ca d) k) in *.
  set (uu := utilities par hold (n_alts st) (s_q m) (s_qs m) (s_ca m) co av (Dense ca) (d_co d)) in *.
  assert (Hsz : size_ok par (s_q m) (n_alts st) av (Dense ca)).
  { intros Hq k x Hx Hk. simpl in Hx. destruct (av k) eqn:Eav; [|discriminate]. injection Hx as <-.
    destruct (nth_error alts k) as [a|] eqn:Ea; [|apply nth_error_None in Ea; lia].
    unfold ca. rewrite (in_order_nth _ _ a) by auto. apply HZ; auto; [eapply nth_error_In; eauto|].
    rewrite <- (avail_nth alts d k a Ea). exact Eav. }
  assert (Hu : forall k a, nth_error alts k = Some a -> (k < n_alts st)%nat -> fst uu k = ext_utility m d par a).
  { intros k a Ha Hk.
    destruct (utilities_closed par hold (n_alts st) (s_q m) (s_qs m) (s_ca m) co av (Dense ca) (d_co d) I Hsz k Hk) as [H _].
    { simpl. destruct (av k); split; intros; try congruence. }
    unfold uu. rewrite H. simpl. unfold ext_utility. rewrite <- (avail_nth alts d k a Ha). fold av.
    destruct (av k); auto. f_equal. unfold total_utility, utility_of, ca.
    rewrite (in_order_nth _ _ a) by auto.
    rewrite (linear_co_slots alts (d_co d) par k a HD Ha (s_co m) co Hco). auto. }
  assert (Hav : av_matches st (fst uu) av).
  { intros k Hk. destruct (nth_error alts k) as [a|] eqn:Ea; [|apply nth_error_None in Ea; lia].
    rewrite (Hu k a Ea Hk). unfold ext_utility, av. rewrite (avail_nth alts d k a Ea).
    unfold finite. destruct (available d a); split; intros; congruence. }
  assert (Hmu : mu_positive st par).
  { intros k Hk. destruct (nth_error std k) as [c|] eqn:Ek; [|apply nth_error_None in Ek; lia].
    rewrite (Emu k c Ek) by lia. assert (Hc : In c (gnodes g)) by (eapply Permutation_in; [exact HP|eapply nth_error_In; eauto]).
    apply HM; auto. intros Hl. destruct (Hleaf c Hl) as [a [Hlt _]].
    rewrite (slot_nth std c k) in Hlt by auto. lia. }
  assert (Hnz := mu_positive_nz st par Hmu).
  assert (Hkids : forall c, In c (gnodes g) -> kids g std (slot std c) = map (slot std) (children_of g c)).
  { intros c Hc. unfold kids. rewrite (Hslot c Hc). reflexivity. }
  unfold master. fold uu.
  assert (EU := out_utility st par (fst uu) (snd uu) av ch (d_wt d) lp0 P0).
  assert (EP := out_prob st par (fst uu) (snd uu) av ch (d_wt d) lp0 P0).
  split; [|split].
  - rewrite EU, EP. constructor.
    + intros c Hl. destruct (Hleaf c Hl) as [a [Hlt [_ [Ha Hc]]]].
      rewrite (U_alt st _ T) by auto. rewrite (Hu _ a) by auto. rewrite Hc. auto.
    + intros c Hc Hl Hnone. assert (Hk := Hnest c Hc Hl).
      rewrite (U_nest st _ T) by (auto; apply Hnz; auto). rewrite (Hkids c Hc).
      assert (Hnf : ~ finite (logsum (mu_of st par (slot std c)) (map (node_utilities st par (fst uu)) (map (slot std) (children_of g c))))).
      { rewrite logsum_finite. intros [x [Hx Hf]]. rewrite map_map in Hx. apply in_map_iff in Hx.
        destruct Hx as [e [<- He]]. apply Hf. apply Hnone. apply children_of_link; auto. }
      unfold finite in Hnf. destruct (logsum _ _); auto. exfalso. apply Hnf. discriminate.
    + intros c Hc [x [Hx Hf]]. destruct (Hnl c x Hx) as [_ Hl]. assert (Hk := Hnest c Hc Hl).
      rewrite (U_nest st _ T) at 1 by (auto; apply Hnz; auto). rewrite (Hkids c Hc).
      rewrite (Emu _ c (Hslot c Hc)) by lia. unfold logsum.
      replace (existsb _ _) with true.
      * f_equal. rewrite map_map, Rsum_map. ring.
      * symmetry. apply existsb_exists. exists (node_utilities st par (fst uu) (slot std x)). split.
        -- rewrite map_map. apply in_map_iff. exists x. split; auto. apply children_of_link; auto.
        -- destruct (node_utilities st par (fst uu) (slot std x)); auto.
    + destruct (P_spec st _ T par (fst uu) av ch (d_wt d) lp0 P0) as [H1 _].
      replace (slot std (groot g)) with (n_nodes st - 1)%nat; auto.
      symmetry. apply slot_nth; auto. rewrite Enn, HRt, app_length. simpl.
      replace (length l + 1 - 1)%nat with (length l) by lia. rewrite nth_error_app2, Nat.sub_diag by lia. auto.
    + intros c x Hx. destruct (Hnl c x Hx) as [Hc Hl]. assert (Hk := Hnest c Hc Hl).
      destruct (P_spec st _ T par (fst uu) av ch (d_wt d) lp0 P0) as [_ H1].
      assert (Hin : In (slot std x) (kids g std (slot std c))).
      { rewrite (Hkids c Hc). apply in_map. apply children_of_link; auto. }
      rewrite (H1 (slot std c) (slot std x)) by (auto; lia). f_equal.
      assert (Emc := Emu _ c (Hslot c Hc)).
      destruct (node_utilities st par (fst uu) (slot std c)) as [v|] eqn:Ev.
      * rewrite (cp_share st _ T par (fst uu) Hnz av Hav ch (d_wt d) lp0 (slot std c) (slot std x)); auto; try lia.
        -- rewrite Emc by lia. rewrite (Hkids c Hc), Rsum_map. auto.
        -- unfold finite. congruence.
      * rewrite (cp_spec st _ T par (fst uu) Hnz av Hav ch (d_wt d) lp0 (slot std c) (slot std x)) by (auto; lia).
        destruct (node_utilities st par (fst uu) (slot std x)) as [w|] eqn:Ew.
        -- exfalso. assert (Hf : finite (node_utilities st par (fst uu) (slot std c))); [|unfold finite in Hf; congruence].
           rewrite (U_nest st _ T) by (auto; apply Hnz; auto). apply logsum_finite.
           exists (node_utilities st par (fst uu) (slot std x)). split; [apply in_map; auto|unfold finite; congruence].
        -- simpl. unfold Rdiv. ring.
  - intros Hc. rewrite (C06_loglike st _ par (fst uu) (snd uu) av ch (d_wt d) lp0 P0 T Hmu Hav).
    + f_equal. f_equal. rewrite Ena.
      assert (Hseq : forall k c, nth_error E k = Some c -> (k < length E)%nat -> slot std c = k).
      { intros k c Hk Hlt. apply slot_nth; auto. rewrite Hstd, nth_error_app1; auto. }
      rewrite <- (map_id E) at 2.
      replace (map (fun x => x) E) with (map (fun k => nth k E 0%Z) (seq 0 (length E))).
      * rewrite Rsum_map. apply Rsum_ext. intros k Hk. apply in_seq in Hk.
        assert (Hn : nth_error E k = Some (nth k E 0%Z)) by (apply nth_error_nth'; lia).
        destruct (nth_error alts k) as [a|] eqn:Ea; [|apply nth_error_None in Ea; lia].
        rewrite (carried_nth E alts k _ a HEN Hn Ea), (choice_nth alts d ch k a Hch Ea).
        rewrite (Hseq k _ Hn) by lia. auto.
      * rewrite map_id. clear. generalize E. intros L. induction L as [|x L IH]; simpl; auto.
        f_equal. rewrite <- seq_shift, map_map. exact IH.
    + intros k Hk Hne. destruct (nth_error alts k) as [a|] eqn:Ea; [|apply nth_error_None in Ea; lia].
      destruct (nth_error E k) as [c|] eqn:Ec; [|apply nth_error_None in Ec; lia].
      unfold av. rewrite (avail_nth alts d k a Ea).
      rewrite (choice_nth alts d ch k a Hch Ea) in Hne.
      assert (Hcl : is_leaf g c) by (apply in_leaves; eapply Permutation_in; [exact HLv|eapply nth_error_In; eauto]).
      assert (Hcc := carried_nth E alts k c a HEN Ec Ea). specialize (Hc c Hcl). rewrite Hcc in Hc. auto.
  - intros [c [Hl [Hne Hf]]]. destruct (Hleaf c Hl) as [a [Hlt [_ [Ha Hc]]]]. rewrite Hc in *.
    apply (C06_chosen_unavailable st _ par (fst uu) (snd uu) av ch (d_wt d) lp0 P0 T Hmu Hav).
    exists (slot std c). split; auto. rewrite (choice_nth alts d ch _ a Hch Ha). split; auto.
    unfold av. rewrite (avail_nth alts d _ a Ha). auto.
Qed.
End Eval.
