(** One-step equations of the estimation loops, used for the concrete cases. *)
From Verif Require Import ParamModel BhhhModel BhhhSpec BhhhProofs.
Open Scope R_scope.
Section Steps.
Variable held : list bool.
Variable eval : sample -> list R -> R -> R -> point.
Variable direction : list (list R) -> list R -> list R.

Lemma search_hit f s cur dir cll minlen t st st1 :
  st1 = set_vals held (axpy cur dir t) st ->
  nlt cll (e_ll (eval_at eval s st1)) = true ->
  search held eval (S f) s cur dir cll minlen t st = Some (eval_at eval s st1, t, st1).
Proof. intros -> H; simpl; rewrite H; auto. Qed.
Lemma search_miss f s cur dir cll minlen t st st1 :
  st1 = set_vals held (axpy cur dir t) st ->
  nlt cll (e_ll (eval_at eval s st1)) = false -> t * (1/2) < minlen ->
  search held eval (S f) s cur dir cll minlen t st = Some (eval_at eval s st1, t * (1/2), st1).
Proof. intros -> H Ht; simpl; rewrite H. destruct (Rlt_dec _ _); auto; lra. Qed.
Lemma simple_loop_done rem fuel s ctol minlen iter steplen steps cur e st :
  Rabs (tol_of direction e) <= ctol ->
  simple_loop held eval direction rem fuel s ctol minlen iter steplen steps cur e st
    = Some (Fit (e_ll e) (tol_of direction e) iter steps Success st).
Proof. intros; destruct rem; simpl; destruct (Rlt_dec _ _); auto; lra. Qed.
Lemma simple_loop_step rem fuel s ctol minlen iter steplen steps cur e st p t st1 :
  ctol < Rabs (tol_of direction e) ->
  search held eval fuel s cur (dir_of direction e) (e_ll e) minlen steplen st = Some (p, t, st1) ->
  nle (e_ll p) (e_ll e) = false ->
  simple_loop held eval direction (S rem) fuel s ctol minlen iter steplen steps cur e st
    = simple_loop held eval direction rem fuel s ctol minlen (S iter) t (steps ++ [t]) (vals st1) p st1.
Proof. intros H Es En; simpl; destruct (Rlt_dec _ _); [|lra]. rewrite Es, En; auto. Qed.
Lemma simple_loop_fail rem fuel s ctol minlen iter steplen steps cur e st p t st1 :
  ctol < Rabs (tol_of direction e) ->
  search held eval fuel s cur (dir_of direction e) (e_ll e) minlen steplen st = Some (p, t, st1) ->
  nle (e_ll p) (e_ll e) = true ->
  simple_loop held eval direction (S rem) fuel s ctol minlen iter steplen steps cur e st
    = Some (StepFailure (set_vals held cur st1)).
Proof. intros H Es En; simpl; destruct (Rlt_dec _ _); [|lra]. rewrite Es, En; auto. Qed.

Variable violated : list R -> bool.
Variable cct : list R -> R -> R -> R.
Variable ncases : R.
Lemma numba_loop_done rem fuel s a iter steplen steps cur e cpen st :
  Rabs (tol_of direction e) <= na_ctol a -> intens st = 0 ->
  numba_loop held eval direction violated cct ncases rem fuel s a iter steplen steps cur e cpen st
    = Some (Fit (e_ll e) (tol_of direction e) iter steps Success st).
Proof.
  intros H Hi; destruct rem; simpl; unfold converged, violated_ic;
    (destruct (Req_EM_T _ _); [|contradiction]); destruct (Rle_dec _ _); auto; lra.
Qed.
Lemma numba_loop_step rem fuel s a iter steplen steps cur e cpen st p t st1 :
  na_ctol a < Rabs (tol_of direction e) -> intens st = 0 -> na_soft a = None ->
  search held eval fuel s cur (dir_of direction e) (e_ll e) (na_minlen a)
    (next_len (na_momentum a) (na_maxlen a) steps steplen) st = Some (p, t, st1) ->
  intens st1 = 0 -> nle (e_ll p) (e_ll e) = false ->
  numba_loop held eval direction violated cct ncases (S rem) fuel s a iter steplen steps cur e cpen st
  = numba_loop held eval direction violated cct ncases rem fuel s a (S iter) t (steps ++ [t]) (vals st1) p cpen st1.
Proof.
  intros H Hi Hs Es Hi1 En; simpl. unfold converged, soft_stop. destruct (Rle_dec _ _); [lra|].
  rewrite Hs, Es, En. unfold intensify. destruct (Req_EM_T _ _); [auto|contradiction].
Qed.
(** A failed search with no violation and no penalty, not yet converged: the loop goes on with
    the values of the failed point. *)
Lemma numba_loop_stale rem fuel s a iter steplen steps cur e cpen st p t st1 st2 :
  na_ctol a < Rabs (tol_of direction e) -> intens st = 0 -> na_soft a = None ->
  search held eval fuel s cur (dir_of direction e) (e_ll e) (na_minlen a)
    (next_len (na_momentum a) (na_maxlen a) steps steplen) st = Some (p, t, st1) ->
  intens st1 = 0 -> nle (e_ll p) (e_ll e) = true ->
  st2 = set_vals held cur st1 ->
  violated (vals st2) = false -> Rabs (cpen * ncases) <= 1/100 ->
  na_ctol a <= Rabs (cct (vals st2) (intens st2) (sharp st2)) ->
  numba_loop held eval direction violated cct ncases (S rem) fuel s a iter steplen steps cur e cpen st
  = numba_loop held eval direction violated cct ncases rem fuel s a (S iter) t (steps ++ [t]) (vals st2) p cpen st2.
Proof.
  intros H Hi Hs Es Hi1 En -> Hv Hc Ht; cbn [numba_loop]. unfold converged, soft_stop.
  destruct (Rle_dec _ _); [lra|].
  rewrite Hs, Es, En, Hv.
  destruct (Rlt_dec (1/100) (Rabs (cpen * ncases))) as [Hx|_]; [lra|].
  destruct (Rlt_dec _ (na_ctol a)) as [Hx|_]; [lra|].
  unfold intensify. destruct (Req_EM_T _ _) as [_|Hx]; [auto|]. simpl in Hx; contradiction.
Qed.
End Steps.

Lemma search_pos held eval fuel s cur dir cll minlen t st e t' st' :
  search held eval fuel s cur dir cll minlen t st = Some (e, t', st') -> 0 < t -> 0 < t'.
Proof.
  revert t st; induction fuel as [|f IH]; simpl; intros t st E Ht; [discriminate|].
  destruct (nlt _ _); [inversion E; subst; auto|].
  destruct (Rlt_dec _ _); [inversion E; subst; lra|]. eapply IH; [exact E|lra].
Qed.
(** A search all of whose proposals look the same and are no better. *)
Lemma search_misses held eval fuel s cur dir cll minlen t st B :
  length held = length cur -> length dir = length held -> vals st = cur ->
  0 < t -> t * (1/2)^fuel < minlen -> (0 < fuel)%nat ->
  (forall u, 0 < u -> eval s (upd held cur (axpy cur dir u)) (intens st) (sharp st) = B) ->
  nlt cll (e_ll B) = false ->
  exists t' st1, search held eval fuel s cur dir cll minlen t st = Some (B, t', st1) /\
    0 < t' < minlen /\ t' <= t /\ vals st1 = upd held cur (axpy cur dir (2 * t')) /\
    intens st1 = intens st /\ sharp st1 = sharp st.
Proof.
  intros Lc Ld Hv Ht Hf Hf0 HB Hn.
  destruct (search _ _ _ _ _ _ _ _ _ _) as [[[p t'] st1]|] eqn:Es.
  2:{ exfalso; revert Es; apply search_total; auto. }
  assert (Hs : same_held held (vals st) cur) by (rewrite Hv; apply same_refl).
  pose proof (search_pos _ _ _ _ _ _ _ _ _ _ _ _ _ Es Ht) as Hpos.
  destruct (search_spec _ _ _ _ _ _ _ _ _ _ _ _ _ Es Lc Ld Hs) as (Hp & Hi & Hk & Hs1 & Htl & Hc).
  rewrite Hi, Hk in Hp.
  rewrite Rmax_left in Htl by lra.
  destruct Hc as [[H Hm]|(H & Hl & Hm)].
  - rewrite Hm, HB in Hp by auto. subst p. congruence.
  - rewrite Hm, HB in Hp by lra. subst p. exists t', st1. repeat split; auto.
Qed.
