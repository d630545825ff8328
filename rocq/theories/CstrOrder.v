(** The one-string form of OrderingBound, and strings in the constraint list. *)
From Verif Require Import ParamModel ConsModel ConsSpec ConsProofs CstrModel CstrSpec CstrProofs CstrReads.
From Coq Require Import Ascii.
Open Scope R_scope.

Definition no_char (n : nat) (s : text) : Prop := Forall (fun c => cd c <> n) s.
Lemma chr_neq n c : cd c <> n -> chr n c = false.
Proof. intros H. destruct (chr n c) eqn:E; auto. apply chr_spec in E. congruence. Qed.
Lemma chr_eq n : (n < 256)%nat -> chr n (ch n) = true.
Proof. intros H. apply chr_spec. now apply cd_ch. Qed.
Lemma split1_none n r s : no_char n s -> split1 (n :: r) s = None.
Proof.
  induction 1 as [|c s H _ IH]; auto. cbn. rewrite (chr_neq _ _ H).
  cbn in IH. now rewrite IH.
Qed.
Lemma split1_found n r a b rest : no_char n a -> starts (n :: r) b = Some rest -> split1 (n :: r) (a ++ b) = Some (a, rest).
Proof.
  intros H K. induction H as [|c a H _ IH].
  - cbn [app]. destruct b; cbn [split1]; now rewrite K.
  - cbn. rewrite (chr_neq _ _ H). cbn in IH. now rewrite IH.
Qed.
(** The separator "<=" is not found where "<" is not followed by "=". *)
Lemma split1_not_eq n a b : no_char n a -> no_char n b -> noeq b -> (n < 256)%nat ->
  split1 [n; 61%nat] (a ++ ch n :: b) = None.
Proof.
  intros H Hb N Hn. induction H as [|c a H _ IH].
  - assert (E : starts [n; 61%nat] (ch n :: b) = None).
    { cbn. rewrite (chr_eq n Hn). destruct b as [|c b]; auto. now rewrite (chr_neq 61 c). }
    cbn [app split1]. rewrite E. now rewrite (split1_none n [61%nat] b Hb).
  - cbn [app split1 starts]. rewrite (chr_neq _ _ H). now rewrite IH.
Qed.
Lemma lstrip_spaces s a : spaces s -> lstrip (s ++ a) = lstrip a.
Proof. induction 1 as [|c s H _ IH]; cbn; auto. apply is_space_spec in H. now rewrite H. Qed.
(** Text without blanks at its ends. *)
Definition tidy (s : text) : Prop := s <> [] /\ (forall c r, s = c :: r -> ~ white c) /\ (forall c r, s = r ++ [c] -> ~ white c).
Lemma lstrip_tidy a b : a <> [] -> (forall c r, a = c :: r -> ~ white c) -> lstrip (a ++ b) = a ++ b.
Proof.
  intros N H. destruct a as [|c a]; [congruence|]. specialize (H c a eq_refl). cbn.
  destruct (is_space c) eqn:E; auto. apply is_space_spec in E. tauto.
Qed.
Lemma strip_tidy s1 a s2 : spaces s1 -> tidy a -> spaces s2 -> strip (s1 ++ a ++ s2) = a.
Proof.
  intros H1 (N & Hh & Hl) H2. unfold strip. rewrite lstrip_spaces, lstrip_tidy by auto.
  rewrite rev_app_distr, lstrip_spaces by (now apply Forall_rev).
  rewrite <- (app_nil_r (rev a)), lstrip_tidy, app_nil_r; [apply rev_involutive| |].
  - intros E. apply N. rewrite <- (rev_involutive a), E. auto.
  - intros c r E. apply (Hl c (rev r)). rewrite <- (rev_involutive a), E. auto.
Qed.
Lemma name_tidy p : name_text p -> tidy p.
Proof.
  intros H. pose proof (name_solid p H) as S. destruct H as (N & _). split; auto. split.
  - intros c r ->. inv S. tauto.
  - intros c r ->. apply Forall_app in S as (_ & S). inv S. tauto.
Qed.
Lemma spaces_no n s : spaces s -> In n [60; 62]%nat -> no_char n s.
Proof.
  intros H Hn. eapply Forall_impl; [|exact H]. intros c Hc. unfold white in Hc. revert Hc. generalize (cd c).
  intros m. cbn in *. lia.
Qed.
Lemma spaces_noeq s a : spaces s -> noeq a -> noeq (s ++ a).
Proof.
  intros H Ha. destruct H as [|c s H _]; auto. cbn. unfold white in H. revert H. generalize (cd c). intros m. cbn. lia.
Qed.
(** Names, in the wide sense of OrderingBound: no blank at the ends, no "<" or ">" inside, no "=" at the front. *)
Definition wide_name (p : text) : Prop := tidy p /\ no_char 60 p /\ no_char 62 p /\ noeq p.
Lemma starts_cons n r s : (n < 256)%nat -> starts (n :: r) (ch n :: s) = starts r s.
Proof. intros H. cbn. now rewrite (chr_eq n H). Qed.
Lemma ordering_reads o a b s1 s2 t s3 s4 : wide_name a -> wide_name b -> spaces s1 -> spaces s2 -> spaces s3 -> spaces s4 ->
  rel_text o t -> ordering_text (s1 ++ a ++ s2 ++ t ++ s3 ++ b ++ s4) =
    Some (match o with LE => Order (str_of a) (str_of b) | GE => Order (str_of b) (str_of a) end).
Proof.
  intros (Ta & A60 & A62 & _) (Tb & B60 & B62 & Be) S1 S2 S3 S4 R.
  replace (s1 ++ a ++ s2 ++ t ++ s3 ++ b ++ s4) with ((s1 ++ a ++ s2) ++ t ++ (s3 ++ b ++ s4)) by now rewrite <- !app_assoc.
  assert (La : forall n, In n [60; 62]%nat -> no_char n (s1 ++ a ++ s2)).
  { intros n Hn. unfold no_char. rewrite !Forall_app. repeat split; try (now apply spaces_no).
    destruct Hn as [<-|[<-|[]]]; auto. }
  assert (Lb : forall n, In n [60; 62]%nat -> no_char n (s3 ++ b ++ s4)).
  { intros n Hn. unfold no_char. rewrite !Forall_app. repeat split; try (now apply spaces_no).
    destruct Hn as [<-|[<-|[]]]; auto. }
  assert (Le : noeq (s3 ++ b ++ s4)).
  { apply spaces_noeq; auto. destruct b; auto. cbn. destruct Tb as (N & _); congruence. }
  pose proof (strip_tidy _ _ _ S1 Ta S2) as Ea. pose proof (strip_tidy _ _ _ S3 Tb S4) as Eb.
  remember (s1 ++ a ++ s2) as A eqn:EA. remember (s3 ++ b ++ s4) as B eqn:EB. clear EA EB.
  unfold ordering_text. destruct R; cbn [app].
  - rewrite (split1_not_eq 60 A B) by (auto with datatypes; lia).
    rewrite (split1_found 60 [] A (ch 60 :: B) B) by (try (now apply starts_cons; lia); auto with datatypes).
    now rewrite Ea, Eb.
  - rewrite (split1_found 60 [61%nat] A (ch 60 :: ch 61 :: B) B); auto with datatypes.
    now rewrite Ea, Eb.
  - rewrite (split1_none 60 [61%nat]), (split1_none 60 []).
    2,3: apply Forall_app; split; [apply La; auto with datatypes|]; constructor; [rewrite cd_ch; lia|apply Lb; auto with datatypes].
    rewrite (split1_not_eq 62 A B) by (auto with datatypes; lia).
    rewrite (split1_found 62 [] A (ch 62 :: B) B) by (try (now apply starts_cons; lia); auto with datatypes).
    now rewrite Ea, Eb.
  - rewrite (split1_none 60 [61%nat]), (split1_none 60 []).
    2,3: apply Forall_app; split; [apply La; auto with datatypes|]; constructor; [rewrite cd_ch; lia|];
         constructor; [rewrite cd_ch; lia|apply Lb; auto with datatypes].
    rewrite (split1_found 62 [61%nat] A (ch 62 :: ch 61 :: B) B); auto with datatypes.
    now rewrite Ea, Eb.
Qed.
Lemma name_wide p : name_text p -> wide_name p.
Proof.
  intros H. split; [now apply name_tidy|]. pose proof (name_solid p H) as S.
  repeat split; [| |destruct S as [|c s Hc _]; cbn; auto; lia];
  (eapply Forall_impl; [|exact S]); cbn; intros c Hc; lia.
Qed.
Lemma agree c p q : interpret c = Says (Order p q) -> ordering_text c = Some (Order p q).
Proof.
  intros H. apply read_is_sentence in H as (s & U & W & T).
  destruct s as [a o b|a o b o' d]; [|inv U; discriminate].
  inv U; destruct o; cbn in T; try discriminate; injection T as -> ->; inv W;
  repeat match goal with H : side_text (Par _) _ |- _ => inv H end.
  - rewrite (ordering_reads LE); auto using name_wide.
  - rewrite (ordering_reads GE); auto using name_wide.
Qed.
Lemma link_scale f c c' : link_model f None c = Some c' -> c_scale c' = c_scale c.
Proof.
  unfold link_model. destruct (c_spec c);
  repeat match goal with |- context [match ?x with _ => _ end] => destruct x end; try discriminate; intros H; inv H; auto.
Qed.
Lemma new_scale_pos tol s : 0 < c_scale (new_cons tol s).
Proof. destruct s; cbn; lra. Qed.
(** Names made of e/E and digits. *)
Lemma exponent_name_numlang e d : e = ch 101 \/ e = ch 69 -> Forall digit d -> numlang (e :: d).
Proof.
  intros He F. apply numlang_iff. left. exists [], [], [], [], [e], [], d.
  unfold opt_text. repeat split; auto. right. exists e. auto.
Qed.
Lemma exponent_name_bad e d : e = ch 101 \/ e = ch 69 -> Forall digit d -> asfloat (e :: d) = None.
Proof.
  intros He F. unfold asfloat.
  assert (N : existsb (chr 47) (e :: d) = false).
  { cbn. rewrite (noslash_digits d F), orb_false_r. apply chr_neq. destruct He; subst; rewrite cd_ch; lia. }
  rewrite N. unfold pyfloat.
  assert (T : take_sign (e :: d) = (1%Z, e :: d)).
  { cbn. rewrite !chr_neq; auto; destruct He; subst; rewrite cd_ch; lia. }
  rewrite T. replace (span_digits (e :: d)) with (@nil ascii, e :: d).
  2:{ cbn. destruct (is_digit e) eqn:E; auto. apply is_digit_spec in E. unfold digit in E.
      destruct He; subst; rewrite cd_ch in E; lia. }
  rewrite chr_neq by (destruct He; subst; rewrite cd_ch; lia). auto.
Qed.
Lemma le_exponent_name p e d s1 s2 t s3 s4 : name_text p -> e = ch 101 \/ e = ch 69 -> Forall digit d ->
  spaces s1 -> spaces s2 -> rel_text LE t -> spaces s3 -> spaces s4 ->
  interpret (s1 ++ p ++ s2 ++ t ++ s3 ++ (e :: d) ++ s4) = BadNumber.
Proof.
  intros Np He Fd S1 S2 R S3 S4.
  assert (Sh : shape2 name_text LE numlang (s1 ++ p ++ s2 ++ t ++ s3 ++ (e :: d) ++ s4) p t (e :: d)).
  { exists s1, s2, s3, s4. repeat split; auto; try apply Np. now apply exponent_name_numlang. }
  destruct (none3 _ _ _ _ _ _ _ good_name good_num Sh) as (E1 & _). unfold interpret. rewrite E1.
  unfold le_n. rewrite (some2 _ name_text _ LE _ numlang _ p t (e :: d)) by eauto with cstr.
  cbn [group nth Nat.sub]. unfold with_number. now rewrite exponent_name_bad.
Qed.
Lemma le_digit_name p d s1 s2 t s3 s4 : name_text p -> Forall digit d -> d <> [] ->
  spaces s1 -> spaces s2 -> rel_text LE t -> spaces s3 -> spaces s4 ->
  interpret (s1 ++ p ++ s2 ++ t ++ s3 ++ d ++ s4) = Says (Fixed (str_of p) None (Some (Fin (digits_value d)))).
Proof.
  intros Np Fd Nd S1 S2 R S3 S4.
  assert (Hn : numeral d (digits_value d)).
  { pose proof (decimal [] 1 d [] [] [] 1 sg_none Fd fr_none) as H. rewrite !app_nil_r in H.
    specialize (H Nd ex_none). cbn in H. replace (1 * (digits_value d + 0 / 1) * 1) with (digits_value d) in H by lra. auto. }
  assert (Sh : shape2 name_text LE numlang (s1 ++ p ++ s2 ++ t ++ s3 ++ d ++ s4) p t d).
  { exists s1, s2, s3, s4. repeat split; auto; try apply Np. eapply numeral_numlang; eauto. }
  destruct (none3 _ _ _ _ _ _ _ good_name good_num Sh) as (E1 & _). unfold interpret. rewrite E1.
  unfold le_n. rewrite (some2 _ name_text _ LE _ numlang _ p t d) by eauto with cstr.
  cbn [group nth Nat.sub]. now rewrite (with_number_ok d _ _ Hn).
Qed.
