(** * Executions of the interleaving machine are executions of the view machine.

    The view machine may always read the newest message.  If all threads do, and nobody synchronises
    outside of the vector, it follows the interleaving machine step by step. *)

From Coq Require Import List Arith Bool Lia.
From Verif.Model Require Import Prog Mem Deps State Elem Vec Excl Machine.
From Verif Require Import Client Spec.
From Verif Require Fair.
From Verif.Logic Require Import Shape Clients Hist Facts Live.
From Verif.RA Require Import Weak WFair WTrace WInv WStep WSlots WSpecs WOps WSound WLocks WLive.
Import ListNotations.
Local Notation latest := Weak.latest.
Local Notation execution := Client.execution.

(** ** What the two histories have in common: identifiers of calls are positions in a history, hence
    left out; so are the loads of counters, states and capacities, and when exactly a new position gets
    its value. *)
Section Visible.
  Context {V : Type}.
  Inductive seen : Type :=
  | Called (t : nat) (o : op V)
  | Returned (t : nat) (r : ret V)
  | Panicked (t : nat) (m : panic)
  | Did (t : nat) (a : acc V)
  | Cleared
  | Raised (n m : nat).
  Definition common (a : acc V) : bool :=
    match a with AcAdd _ _ | AcRead _ _ | AcWrite _ _ _ | AcSwap _ _ _ _ => true | _ => false end.
  Definition sight (e : event V) : list seen :=
    match e with
    | EInv _ t o => [Called t o]
    | ERet _ t r => [Returned t r]
    | EPan _ t m => [Panicked t m]
    | EAcc _ t a => if common a then [Did t a] else []
    | EClear => [Cleared]
    | EReserve n m => [Raised n m]
    end.
  Definition visible (h : list (event V)) : list seen := flat_map sight h.
  Lemma visible_app h h' : visible (h ++ h') = visible h ++ visible h'.
  Proof. apply flat_map_app. Qed.
  Lemma visible_accs id t l : visible (map (EAcc id t) l) = map (Did t) (filter common l).
  Proof. induction l as [|a l IH]; simpl; [reflexivity|]. rewrite IH. now destruct (common a). Qed.
End Visible.
Arguments seen : clear implicits.

Section Simul.
  Context {V : Type} (E : env V).

  (** ** Memory *)
  Definition slot_sim (x : slot V) (y : wslot V) : Prop :=
    (exists m, nth_error (ws y) (last_ts (ws y)) = Some m /\ mval m = sst x) /\ wv y = sval x.
  Record msim (s : shared V) (M : wmem V) : Prop := MSim {
    ms_resv : latest (m_resv M) = resv s;
    ms_wrtn : latest (m_wrtn M) = wrtn s;
    ms_cap : latest (m_cap M) = cap s;
    ms_max : m_max M = maxc s;
    ms_slots : forall i, slot_sim (slots s i) (m_slots M i)
  }.

  Lemma latest_app l m : latest (l ++ [m]) = mval m.
  Proof. unfold latest, last_ts. rewrite app_length. simpl. replace (length l + 1 - 1) with (length l) by lia. now rewrite nth_error_app2, Nat.sub_diag by lia. Qed.
  Lemma top_app {A} (l : list (msg A)) m : nth_error (l ++ [m]) (last_ts (l ++ [m])) = Some m.
  Proof. unfold last_ts. rewrite app_length. simpl. replace (length l + 1 - 1) with (length l) by lia. now rewrite nth_error_app2, Nat.sub_diag by lia. Qed.
  Lemma latest_at l m : nth_error l (last_ts l) = Some m -> latest l = mval m.
  Proof. unfold latest. now intros ->. Qed.

  Lemma put_sim s M i x y : msim s M -> slot_sim x y -> msim (set_slot s i x) (put_slot M i y).
  Proof.
    intros [A1 A2 A3 A4 A5] H. constructor; simpl; auto. intros j. unfold upd. destruct (j =? i); auto.
  Qed.
  Lemma put_left s M i x : msim s M -> slot_sim x (m_slots M i) -> msim (set_slot s i x) M.
  Proof. intros [A1 A2 A3 A4 A5] H. constructor; simpl; auto. intros j. unfold upd. destruct (Nat.eqb_spec j i) as [->|]; auto. Qed.
  Lemma put_right s M i y : msim s M -> slot_sim (slots s i) y -> msim s (put_slot M i y).
  Proof. intros [A1 A2 A3 A4 A5] H. constructor; simpl; auto. intros j. unfold upd. destruct (Nat.eqb_spec j i) as [->|]; auto. Qed.

  Ltac inv H := injection H; clear H; intros; subst.
  Lemma exec_sim id t a s M tv y s' l y' M' tv' : msim s M ->
    exec E t a s = Done y s' l -> wexec E id a (newest a M) M tv = WDone y' M' tv' ->
    y' = y /\ msim s' M' /\ filter common (wlog M a y') = filter common l.
  Proof.
    intros Ms H H'. pose proof Ms as [A1 A2 A3 A4 A5]. pose proof A5 as Sl.
    destruct a; cbn [exec wexec newest wlog] in *; unfold with_slot, with_wslot in *.
    - (* LoadResv *) destruct (nth_error (m_resv M) _) as [m|] eqn:Q; [|discriminate]. destruct (_ <=? _); [|discriminate]. inv H. inv H'.
      rewrite <- A1. split; [now symmetry; apply latest_at|]. split; [exact Ms|reflexivity].
    - (* AddResv *) destruct (nth_error (m_resv M) _) as [m|] eqn:Q; [|discriminate]. inv H. inv H'. apply latest_at in Q. rewrite <- A1, Q.
      split; [reflexivity|]. split; [|reflexivity]. constructor; simpl; auto. now rewrite latest_app.
    - (* LoadWrtn *) destruct (nth_error (m_wrtn M) _) as [m|] eqn:Q; [|discriminate]. destruct (_ <=? _); [|discriminate]. inv H. inv H'.
      rewrite <- A2. split; [now symmetry; apply latest_at|]. split; [exact Ms|reflexivity].
    - (* MaxWrtn *) destruct (nth_error (m_wrtn M) _) as [m|] eqn:Q; [|discriminate]. inv H. inv H'. apply latest_at in Q. rewrite <- A2, Q.
      split; [reflexivity|]. split; [|reflexivity]. constructor; simpl; auto. now rewrite latest_app.
    - (* LoadCap *) destruct (nth_error (m_cap M) _) as [m|] eqn:Q; [|discriminate]. destruct (_ <=? _); [|discriminate]. inv H. inv H'.
      rewrite <- A3. split; [now symmetry; apply latest_at|]. split; [exact Ms|reflexivity].
    - (* LoadMax *) inv H. inv H'. auto.
    - (* LoadSt *) destruct (_ <? _) in H; [|discriminate]. destruct (_ <? _) in H'; [|discriminate]. destruct (A5 i) as [(m & Q & Qv) _]. rewrite Q in H'.
      destruct (_ <=? _); [|discriminate]. inv H. inv H'. auto.
    - (* CasSt *) destruct (_ <? _) in H; [|discriminate]. destruct (_ <? _) in H'; [|discriminate]. destruct (A5 i) as [(m & Q & Qv) Hv]. rewrite Q in H'.
      destruct (_ <=? _); [|discriminate]. rewrite Qv in H'. destruct (st_eqb _ _).
      + destruct (nth_error _ (S _)) as [m'|]; [destruct (mrmw m'); discriminate|]. inv H. inv H'. split; [reflexivity|]. split; [|reflexivity].
        apply put_sim; [exact Ms|]. split; [|exact Hv]. eexists. split; [apply top_app|reflexivity].
      + inv H. inv H'. auto.
    - (* StoreSt *) destruct (_ <? _) in H; [|discriminate]. destruct (_ <? _) in H'; [|discriminate]. destruct (A5 i) as [(m & Q & Qv) Hv].
      destruct (_ =? _); [|discriminate]. rewrite Q in H'.
      assert (K : slot_sim (Slot s0 (sval (slots s i)) (swr (slots s i)) (srd (slots s i)))
                    (WSlot (ws (m_slots M i) ++ [Msg s0 (set_st i (length (ws (m_slots M i))) tv) false id]) (ww (m_slots M i)) (wr (m_slots M i)) (wv (m_slots M i)))).
      { split; [|exact Hv]. eexists. split; [apply top_app|reflexivity]. }
      assert (KM : M' = put_slot M i (WSlot (ws (m_slots M i) ++ [Msg s0 (set_st i (length (ws (m_slots M i))) tv) false id]) (ww (m_slots M i)) (wr (m_slots M i)) (wv (m_slots M i)))).
      { destruct (wv (m_slots M i)); [now inv H'|]. destruct (_ && _); [discriminate|now inv H']. }
      assert (KS : s' = set_slot s i (Slot s0 (sval (slots s i)) (swr (slots s i)) (srd (slots s i))) /\ filter common l = []).
      { destruct (sst (slots s i)), s0, (sval (slots s i)); try discriminate; inv H; auto. }
      destruct KS as [-> KS]. rewrite KS, KM. destruct y, y'. split; [reflexivity|]. split; [now apply put_sim|reflexivity].
    - (* RdBeg *) destruct (_ <? _) in H; [|discriminate]. destruct (_ <? _) in H'; [|discriminate]. destruct (is_none _); [|discriminate]. destruct (may_read _ _ _); [|discriminate].
      inv H. inv H'. split; [reflexivity|]. split; [|reflexivity]. apply put_left; [exact Ms|]. apply A5.
    - (* RdEnd *) destruct (_ <? _) in H; [|discriminate]. destruct (_ <? _) in H'; [|discriminate]. destruct (A5 i) as [Qt Hv].
      destruct (sval (slots s i)) as [v|] eqn:Vs; [|discriminate]. destruct (is_none _); [|discriminate]. destruct (may_read _ _ _); [|discriminate]. rewrite Hv in H'.
      inv H. inv H'. split; [reflexivity|]. split; [|reflexivity]. apply put_sim; [exact Ms|]. split; [exact Qt|]. simpl. congruence.
    - (* WrBeg *) destruct (_ <? _) in H; [|discriminate]. destruct (_ <? _) in H'; [|discriminate]. destruct (_ && _) in H; [|discriminate]. destruct (may_write _ _ _); [|discriminate].
      inv H. inv H'. split; [reflexivity|]. split; [|reflexivity]. apply put_left; [exact Ms|]. apply A5.
    - (* WrEnd *) destruct (_ <? _) in H; [|discriminate]. destruct (_ <? _) in H'; [|discriminate]. destruct (A5 i) as [Qt Hv].
      destruct (_ && _) in H; [|discriminate]. destruct (sval (slots s i)) as [v|] eqn:Vs; [|discriminate]. destruct (may_write _ _ _); [|discriminate]. rewrite Hv in H'.
      inv H. inv H'. split; [reflexivity|]. split; [|reflexivity]. apply put_sim; [exact Ms|]. split; [exact Qt|]. reflexivity.
    - (* SwapEnd *) destruct (_ <? _) in H; [|discriminate]. destruct (_ <? _) in H; [|discriminate]. destruct (_ <? _) in H'; [|discriminate]. destruct (_ <? _) in H'; [|discriminate].
      destruct (A5 i) as [Qi Hi]. destruct (A5 j) as [Qj Hj]. destruct (_ && _) in H; [|discriminate]. destruct (_ && _) in H'; [|discriminate]. rewrite Hi, Hj in H'. rewrite Hi, Hj.
      destruct (sval (slots s i)) as [v|] eqn:Vi; [|discriminate]. destruct (sval (slots s j)) as [w|] eqn:Vj; [|discriminate].
      inv H. inv H'. split; [reflexivity|]. split; [|reflexivity]. apply put_sim; [|split; [exact Qj|reflexivity]]. apply put_sim; [exact Ms|]. split; [exact Qi|reflexivity].
    - (* InitBeg *) destruct (_ <? _) in H; [|discriminate]. destruct (_ <? _) in H'; [|discriminate]. destruct (st_eqb _ _) in H; [|discriminate]. destruct (_ && _) in H; [|discriminate].
      destruct (nth_error _ _); [|discriminate]. destruct (st_eqb _ _); [|discriminate]. destruct (may_write _ _ _); [|discriminate].
      inv H. inv H'. split; [reflexivity|]. split; [|reflexivity]. apply put_left; [exact Ms|]. apply A5.
    - (* InitEnd *) destruct (_ <? _) in H; [|discriminate]. destruct (_ <? _) in H'; [|discriminate]. destruct (_ && _) in H; [|discriminate]. destruct (may_write _ _ _); [|discriminate].
      inv H. inv H'. split; [reflexivity|]. split; [|reflexivity]. apply put_sim; [exact Ms|]. split; [apply A5|reflexivity].
    - (* IterRange *) destruct (_ && _) in H; [|discriminate]. destruct (_ && _) in H'; [|discriminate]. inv H. inv H'. auto.
    - (* GrowBeg *) destruct (growing s); [discriminate|]. destruct (m_grow M); [discriminate|]. destruct (_ =? _) eqn:Q; [|discriminate]. apply Nat.eqb_eq in Q.
      assert (C : capv M tv = cap s) by (rewrite <- A3; unfold capv, latest; now rewrite Q). rewrite C, A4 in H'.
      destruct (policy E _ _ _); inv H; inv H'; (split; [reflexivity|]; split; [|reflexivity]); [constructor; auto|exact Ms].
    - (* GrowEnd *) destruct (is_tid _ _) in H; [|discriminate]. destruct (is_tid _ _) in H'; [|discriminate]. destruct (_ =? _) eqn:Q; [|discriminate]. apply Nat.eqb_eq in Q.
      assert (C : capv M tv = cap s) by (rewrite <- A3; unfold capv, latest; now rewrite Q). rewrite C, A4 in H'.
      destruct (policy E _ _ _) as [c|]; [|discriminate]. inv H. inv H'. split; [reflexivity|]. split; [|reflexivity]. constructor; simpl; auto.
      + now rewrite latest_app.
      + intros i. unfold fill_fresh. destruct (_ && _); [|apply A5]. split; [|reflexivity]. eexists. split; reflexivity.
  Qed.

  (** ** Configurations *)

  (** Calls are numbered from 1, in the order in which they start. *)
  Definition is_inv (e : event V) : bool := match e with EInv _ _ _ => true | _ => false end.
  Definition number (h : list (event V)) (id : nat) : nat := S (length (filter is_inv (firstn id h))).
  Definition call_sim (h : list (event V)) (p : nat * call V) (q : nat * wcall V) : Prop :=
    fst p = fst q /\ c_op (snd p) = wc_op (snd q) /\ c_prog (snd p) = wc_prog (snd q) /\
    c_id (snd p) < length h /\ wc_id (snd q) = number h (c_id (snd p)).
  Record sim (n0 : nat) (c : cfg V) (w : wcfg V) : Prop := Sim {
    sm_mem : msim (sh c) (w_mem w);
    sm_run : Forall2 (call_sim (hist c)) (run c) (w_run w);
    sm_given : given c = flat_map (fun x => grants (r_ret x)) (w_res w);
    sm_req : w_req w = requested n0 (hist c);
    sm_next : w_next w = number (hist c) (length (hist c));
    sm_pan : forall id o m, In (id, o, m) (w_panics w) ->
      exists r id', panicked (hist c) id' r o m /\ epoch (hist c) r = epoch (hist c) (length (hist c))
  }.

  (** The label of the view machine that follows label [l]. *)
  Fixpoint source (g : grant) (l : list (wresult V)) : nat :=
    match l with
    | [] => 0
    | x :: l' => if existsb (grant_eqb g) (grants (r_ret x)) then 0 else S (source g l')
    end.
  Definition follow (w : wcfg V) (l : label V) : wlabel V :=
    match l with
    | LInv t o => WInv t o (match needs o with Some g => source g (w_res w) | None => 0 end)
    | LStep t => WStep t (front w t)
    | LClear => WClear
    | LReserve n => WReserve n
    end.

  Lemma source_ok g l : existsb (grant_eqb g) (flat_map (fun x : wresult V => grants (r_ret x)) l) = true ->
    exists x, nth_error l (source g l) = Some x /\ existsb (grant_eqb g) (grants (r_ret x)) = true.
  Proof.
    induction l as [|x l IH]; simpl; [discriminate|]. rewrite existsb_app. destruct (existsb (grant_eqb g) (grants (r_ret x))) eqn:B; simpl; [eauto|exact IH].
  Qed.
  Lemma fetch_ok o (w : wcfg V) : has_grant o (flat_map (fun x => grants (r_ret x)) (w_res w)) = true ->
    exists v, fetch o (match needs o with Some g => source g (w_res w) | None => 0 end) (w_res w) = Some v.
  Proof.
    unfold has_grant, fetch. destruct (needs o) as [g|]; [|eauto]. intros H. destruct (source_ok g _ H) as (x & -> & ->). eauto.
  Qed.

  Lemma number_app h h' id : id <= length h -> number (h ++ h') id = number h id.
  Proof. intros H. unfold number. rewrite firstn_app. replace (id - length h) with 0 by lia. simpl. now rewrite app_nil_r. Qed.
  Lemma number_all h h' : number (h ++ h') (length (h ++ h')) = number h (length h) + length (filter is_inv h').
  Proof. unfold number. rewrite !firstn_all, filter_app, app_length. lia. Qed.
  Lemma call_sim_app h h' p q : call_sim h p q -> call_sim (h ++ h') p q.
  Proof. intros (H1 & H2 & H3 & H4 & H5). repeat split; auto; [rewrite app_length; lia|]. rewrite number_app by lia. exact H5. Qed.
  Lemma run_sim_app h h' l l' : Forall2 (call_sim h) l l' -> Forall2 (call_sim (h ++ h')) l l'.
  Proof. induction 1; constructor; auto using call_sim_app. Qed.
  Lemma run_sim_look h l l' t x : Forall2 (call_sim h) l l' -> lookup t l = Some x -> exists y, wlookup t l' = Some y /\ call_sim h (t, x) (t, y).
  Proof.
    induction 1 as [|[t1 x1] [t2 y2] l l' H F IH]; simpl; [discriminate|]. pose proof H as (Ht & _). simpl in Ht. subst t2.
    destruct (Nat.eqb_spec t t1) as [->|]; [intros [= ->]; eauto|exact IH].
  Qed.
  Lemma run_sim_none h l l' t : Forall2 (call_sim h) l l' -> lookup t l = None -> wlookup t l' = None.
  Proof.
    induction 1 as [|[t1 x1] [t2 y2] l l' H F IH]; simpl; [reflexivity|]. pose proof H as (Ht & _). simpl in Ht. subst t2.
    destruct (Nat.eqb_spec t t1) as [->|]; [discriminate|exact IH].
  Qed.
  Lemma run_sim_remove h l l' t : Forall2 (call_sim h) l l' -> Forall2 (call_sim h) (remove t l) (wremove t l').
  Proof.
    induction 1 as [|[t1 x1] [t2 y2] l l' H F IH]; simpl; [constructor|]. pose proof H as (Ht & _). simpl in Ht. subst t2.
    destruct (Nat.eqb_spec t t1) as [->|]; [exact F|constructor; auto].
  Qed.
  Lemma requested_app n0 (h h' : list (event V)) : requested n0 (h ++ h') = requested (requested n0 h) h'.
  Proof. apply fold_left_app. Qed.
  Lemma requested_same h : filter is_inv h = [] -> filter is_clear h = [] -> forall n, requested n h = n.
  Proof. induction h as [|e h IH]; intros Ni Nc n; [reflexivity|]. destruct e; simpl in *; try discriminate; now apply IH. Qed.
  Lemma pan_app (h h' : list (event V)) o m : filter is_clear h' = [] ->
    (exists r id', panicked h id' r o m /\ epoch h r = epoch h (length h)) ->
    exists r id', panicked (h ++ h') id' r o m /\ epoch (h ++ h') r = epoch (h ++ h') (length (h ++ h')).
  Proof.
    intros Nc (r & id' & (t & H1 & H2) & He). exists r, id'. assert (L1 : id' < length h) by (apply nth_error_Some; congruence). assert (L2 : r < length h) by (apply nth_error_Some; congruence). split.
    - exists t. now rewrite !nth_error_app1 by assumption.
    - unfold epoch in *. rewrite firstn_all, filter_app, Nc, app_nil_r. rewrite firstn_all in He. rewrite <- He. rewrite firstn_app. replace (r - length h) with 0 by lia. simpl. now rewrite app_nil_r.
  Qed.
  Lemma no_clear_accs id t (l : list (acc V)) : filter is_clear (map (EAcc id t) l) = [].
  Proof. induction l; auto. Qed.
  Lemma no_inv_accs id t (l : list (acc V)) : filter is_inv (map (EAcc id t) l) = [].
  Proof. induction l; auto. Qed.

  (** ** Steps *)
  (** the condition on [clear] is the same on both machines *)
  Lemma ran_over ro nl l0 c0 m0 c id r o m : execution E ro nl l0 c0 m0 c -> panicked (hist c) id r o m ->
    epoch (hist c) r = epoch (hist c) (length (hist c)) -> overran o m -> overrun (hist c).
  Proof.
    intros X P Ep O. destruct (execution_expl _ _ _ _ _ _ c X) as (snap & Ex & _). destruct (h_panicked _ _ _ _ _ _ _ Ex id r o m P) as (L1 & L2 & _). destruct P as (t & P1 & P2).
    destruct (nth_error_split _ _ P2) as (h1 & h2 & Hh & <-). exists h1, id, t, m, h2, o. split; [exact Hh|]. split; [|split; [|exact O]].
    - intros Hi. unfold epoch in Ep. rewrite firstn_all, Hh, firstn_app, Nat.sub_diag, firstn_all in Ep. simpl in Ep. rewrite app_nil_r, filter_app, app_length in Ep. simpl in Ep.
      assert (F : In EClear (filter is_clear h2)) by (apply filter_In; auto). destruct (filter is_clear h2); [contradiction|]. simpl in Ep. lia.
    - rewrite Hh, nth_error_app1 in P1 by exact L1. exact P1.
  Qed.

  (** the relation is kept by steps that add no calls *)
  Lemma sim_after n0 c w s M r r' h' gv res pan : sim n0 c w -> msim s M -> Forall2 (call_sim (hist c ++ h')) r r' ->
    filter is_inv h' = [] -> filter is_clear h' = [] ->
    gv = flat_map (fun x => grants (r_ret x)) res ->
    (forall id o m, In (id, o, m) pan -> In (id, o, m) (w_panics w) \/ exists r id', panicked (hist c ++ h') id' r o m /\ epoch (hist c ++ h') r = epoch (hist c ++ h') (length (hist c ++ h'))) ->
    forall v, sim n0 (Cfg s r (hist c ++ h') gv) (WCfg M v r' (w_next w) res pan (w_req w)).
  Proof.
    intros [A1 A2 A3 A4 A5 A6] Ms F Ni Nc G P v. constructor; simpl; auto.
    - rewrite A4, requested_app. symmetry. now apply requested_same.
    - rewrite A5, number_all, Ni. cbn [length]. now rewrite Nat.add_0_r.
    - intros id o m H. destruct (P id o m H) as [H'|H']; [|exact H']. apply pan_app; [exact Nc|]. eauto.
  Qed.

  Lemma sim_step ro nl l0 c0 m0 c w l c' : execution E ro nl l0 c0 m0 c -> wexecution E ro l0 c0 m0 w -> sim (length l0) c w ->
    client E ro nl (length l0) c l -> step E c l = Next c' ->
    wclient E ro w (follow w l) /\ exists w', wstep E w (follow w l) = WNext w' /\ sim (length l0) c' w' /\
      exists h', hist c' = hist c ++ h' /\ forall n cur, visible (wevents E n cur w (follow w l)) = visible h'.
  Proof.
    intros X Xw S Cl St. pose proof S as [Mm Rn Gv Rq Nx Pn]. destruct (execution_world E ro _ _ _ _ Xw) as (EOK & g & f & Wo).
    destruct l as [t o|t| |n]; simpl in St.
    - (* call *)
      destruct (lookup t (run c)) eqn:Lk; [discriminate|]. destruct (has_grant o (given c)) eqn:G; [|discriminate]. injection St as <-.
      pose proof (run_sim_none _ _ _ _ Rn Lk) as Lw. rewrite Gv in G. destruct (fetch_ok o w G) as (v & Hv). destruct Cl as [(A1 & A2 & A3 & _) Hr].
      split; [simpl; split; [repeat split; auto; discriminate|now rewrite Rq]|].
      eexists. split; [simpl; rewrite Lw, Hv; reflexivity|]. split.
      + constructor; simpl.
        * exact Mm.
        * constructor; [|now apply run_sim_app]. repeat split; simpl; [rewrite app_length; simpl; lia|]. rewrite number_app by lia. exact Nx.
        * exact Gv.
        * rewrite requested_app, Rq. reflexivity.
        * rewrite number_all, Nx. cbn [filter is_inv length]. lia.
        * intros id o' m H. apply pan_app; [reflexivity|eauto].
      + eexists. split; [reflexivity|]. reflexivity.
    - (* step *)
      split; [exact I|]. unfold step_thread in St. destruct (lookup t (run c)) as [x|] eqn:Lk; [|discriminate].
      destruct (run_sim_look _ _ _ _ _ Rn Lk) as (y & Lw & Cs). pose proof Cs as (_ & Ho & Hp & Hl & Hi). simpl in Ho, Hp, Hl, Hi.
      assert (Sw : exists w', wstep E w (WStep t (front w t)) = WNext w').
      { destruct (front_step E ro EOK w g f t y Wo Lw) as [[_ Wt]|(_ & w' & Sw & _)]; [exists w; exact Wt|eauto]. }
      destruct Sw as (w' & Sw). exists w'. split; [exact Sw|]. cbn [follow wevents]. rewrite Lw. simpl in Sw. unfold wstep_thread in Sw. unfold front in *. rewrite Lw in *. rewrite <- Hp in *.
      destruct (c_prog x) as [r|m|a k|a again k] eqn:Pr.
      + injection St as <-. injection Sw as <-. split.
        * apply (sim_after _ _ _ _ _ _ _ _ _ _ _ S Mm); [apply run_sim_app, run_sim_remove, Rn|reflexivity|reflexivity| |auto].
          rewrite flat_map_app, Gv. simpl. now rewrite app_nil_r.
        * eexists. split; reflexivity.
      + injection St as <-. injection Sw as <-. split.
        * apply (sim_after _ _ _ _ _ _ _ _ _ _ _ S Mm); [apply run_sim_app, run_sim_remove, Rn|reflexivity|reflexivity|exact Gv|].
          intros id o' m' H. apply in_app_or in H. destruct H as [H|[H|[]]]; [auto|]. right. injection H as <- <- <-.
          exists (length (hist c)), (c_id x). destruct (run_open E ro nl l0 c0 m0 c t x X Lk) as [Op _]. split.
          -- exists t. rewrite nth_error_app1 by exact Hl. rewrite nth_error_app2, Nat.sub_diag by lia. split; [now rewrite <- Ho|reflexivity].
          -- unfold epoch. rewrite firstn_all, filter_app. simpl. rewrite app_nil_r, firstn_app, Nat.sub_diag, firstn_all. simpl. now rewrite app_nil_r.
        * eexists. split; reflexivity.
      + destruct (exec E t a (sh c)) as [z s ll|] eqn:Ex; [|discriminate]. injection St as <-.
        destruct (wexec E (wc_id y) a (newest a (w_mem w)) (w_mem w) (w_view w t)) as [z' M tv|fl|] eqn:Wx; [|discriminate|discriminate]. injection Sw as <-.
        destruct (exec_sim _ _ _ _ _ _ _ _ _ _ _ _ Mm Ex Wx) as (-> & Ms & Lg). split.
        * apply (sim_after _ _ _ _ _ _ _ _ _ _ _ S Ms); [|apply no_inv_accs|apply no_clear_accs|exact Gv|auto].
          constructor; [|apply run_sim_app, run_sim_remove, Rn]. apply call_sim_app. repeat split; auto.
        * eexists. split; [reflexivity|]. intros n cur. now rewrite !visible_accs, Lg.
      + destruct (exec E t a (sh c)) as [z s ll|] eqn:Ex; [|discriminate].
        destruct (wexec E (wc_id y) a (newest a (w_mem w)) (w_mem w) (w_view w t)) as [z' M tv|fl|] eqn:Wx; [|discriminate|discriminate].
        destruct (exec_sim _ _ _ _ _ _ _ _ _ _ _ _ Mm Ex Wx) as (-> & Ms & Lg). destruct (again z).
        * injection St as <-. injection Sw as <-. split; [exact S|]. exists []. rewrite app_nil_r. split; reflexivity.
        * injection St as <-. injection Sw as <-. split.
          -- apply (sim_after _ _ _ _ _ _ _ _ _ _ _ S Ms); [|apply no_inv_accs|apply no_clear_accs|exact Gv|auto].
             constructor; [|apply run_sim_app, run_sim_remove, Rn]. apply call_sim_app. repeat split; auto.
          -- eexists. split; [reflexivity|]. intros n cur. now rewrite !visible_accs, Lg.
    - (* clear *)
      destruct (run c) eqn:Rc; [|discriminate]. assert (Rw : w_run w = []) by (inversion Rn; reflexivity). unfold clear in St. destruct Mm as [B1 B2 B3 B4 B5].
      split.
      { intros id o m Hp Ov. destruct (Pn id o m Hp) as (r & id' & P1 & P2). exact (Cl (ran_over _ _ _ _ _ _ _ _ _ _ X P1 P2 Ov)). }
      destruct (resv (sh c) <=? cap (sh c)) eqn:Q; [|discriminate]. injection St as <-.
      eexists. split; [simpl; rewrite Rw, B1, B3, Q; reflexivity|]. split.
      + constructor; simpl.
        * constructor; simpl; auto. intros i. unfold slot_sim. destruct i; simpl; (split; [eexists; split; reflexivity|reflexivity]).
        * constructor.
        * reflexivity.
        * now rewrite requested_app.
        * rewrite number_all, Nx. cbn [filter is_inv length]. lia.
        * intros id o m [].
      + eexists. split; reflexivity.
    - (* reserve *)
      split; [exact I|]. destruct (run c) eqn:Rc; [|discriminate]. assert (Rw : w_run w = []) by (inversion Rn; reflexivity). unfold reserve_maximum_capacity in St. pose proof Mm as [B1 B2 B3 B4 B5].
      simpl. rewrite Rw, B3, B4. destruct (reserve E (cap (sh c)) (maxc (sh c)) n) as [m|].
      + injection St as <-. eexists. split; [reflexivity|]. split.
        * apply (sim_after _ _ _ _ _ _ _ _ _ _ _ S); [|constructor|reflexivity|reflexivity|exact Gv|auto]. constructor; auto.
        * eexists. split; reflexivity.
      + injection St as <-. exists w. split; [reflexivity|]. split; [exact S|]. exists []. rewrite app_nil_r. split; reflexivity.
  Qed.

  Lemma sim_start l0 c0 m0 : sim (length l0) (start l0 c0 m0) (wstart l0 c0 m0).
  Proof.
    constructor; simpl; try constructor; simpl; auto; try (rewrite map_length; reflexivity); [|intros ? ? ? []].
    intros i. rewrite nth_error_map. unfold slot_sim. destruct (nth_error l0 i); simpl; (split; [eexists; split; reflexivity|reflexivity]).
  Qed.

  (** ** Executions *)

  (** A step that reads the newest message, or a call, [clear], ...; not a synchronisation. *)
  Definition plain (w : wcfg V) (l : wlabel V) : Prop :=
    match l with WStep t k => k = front w t | WSync _ _ => False | _ => True end.
  Lemma follow_plain w l : plain w (follow w l).
  Proof. destruct l; simpl; auto. Qed.
  (** As [wtrace], with plain steps only. *)
  Inductive plain_trace (ro : bool) (w0 : wcfg V) : wcfg V -> list (event V) -> (nat -> nat) -> Prop :=
  | pt_start : plain_trace ro w0 w0 [] (fun _ => 0)
  | pt_step w h cur l w' : plain_trace ro w0 w h cur -> wclient E ro w l -> plain w l -> wstep E w l = WNext w' ->
      plain_trace ro w0 w' (h ++ wevents E (length h) cur w l) (wcur (length h) cur l).
  Lemma plain_wtrace ro w0 w h cur : plain_trace ro w0 w h cur -> wtrace E ro w0 w h cur.
  Proof. induction 1; [constructor|]. econstructor; eauto. Qed.

  Lemma sim_reach ro nl l0 c0 m0 c : env_ok E -> capok E c0 m0 -> length l0 <= c0 -> length l0 < wmod E ->
    reach E (client E ro nl (length l0)) (start l0 c0 m0) c ->
    exists w h cur, plain_trace ro (wstart l0 c0 m0) w h cur /\ wexecution E ro l0 c0 m0 w /\ sim (length l0) c w /\ visible h = visible (hist c).
  Proof.
    intros A1 A2 A3 A4 R. induction R as [|c l c' R IH Cl St].
    - exists (wstart l0 c0 m0), [], (fun _ => 0). split; [constructor|]. split; [repeat (split; [assumption|]); constructor|]. split; [apply sim_start|reflexivity].
    - destruct IH as (w & h & cur & T & Xw & S & Vs). assert (X : execution E ro nl l0 c0 m0 c) by (repeat (split; [assumption|]); exact R).
      destruct (sim_step _ _ _ _ _ _ _ _ _ X Xw S Cl St) as (Wc & w' & Sw & S' & h' & Hh & Hv).
      exists w', (h ++ wevents E (length h) cur w (follow w l)), (wcur (length h) cur (follow w l)). split; [|split; [|split]].
      + econstructor; eauto using follow_plain.
      + destruct Xw as (B1 & B2 & B3 & B4 & B5). repeat (split; [assumption|]). econstructor; eauto.
      + exact S'.
      + now rewrite Hh, !visible_app, Vs, Hv.
  Qed.

  (** Running calls correspond. *)
  Lemma run_sim_look' h l l' t y : Forall2 (call_sim h) l l' -> wlookup t l' = Some y -> exists x, lookup t l = Some x /\ call_sim h (t, x) (t, y).
  Proof.
    induction 1 as [|[t1 x1] [t2 y2] l l' H F IH]; simpl; [discriminate|]. pose proof H as (Ht & _). simpl in Ht. subst t2.
    destruct (Nat.eqb_spec t t1) as [->|]; [intros [= ->]; eauto|exact IH].
  Qed.
  Lemma sim_open ro nl l0 c0 m0 c w : execution E ro nl l0 c0 m0 c -> sim (length l0) c w ->
    forall t k o, inside w t k o <-> exists id, open (hist c) id t o /\ number (hist c) id = k.
  Proof.
    intros X S t k o. pose proof (sm_run _ _ _ S) as R. split.
    - intros (y & Ly & <- & <-). destruct (run_sim_look' _ _ _ _ _ R Ly) as (x & Lx & (_ & H2 & _ & _ & H5)). simpl in H2, H5.
      exists (c_id x). split; [|now rewrite H5]. rewrite <- H2. exact (run_open E ro nl l0 c0 m0 c t x X Lx).
    - intros (id & O & <-). destruct (open_run E ro nl l0 c0 m0 c _ _ _ X O) as (x & Lx & <- & <-). destruct (run_sim_look _ _ _ _ _ R Lx) as (y & Ly & (_ & H2 & _ & _ & H5)). simpl in H2, H5.
      exists y. auto.
  Qed.

  Lemma sim_calm ro nl l0 c0 m0 c w : execution E ro nl l0 c0 m0 c -> sim (length l0) c w -> ~ overrun (hist c) -> no_overrun w.
  Proof.
    intros X S N id o m H O. destruct (sm_pan _ _ _ S id o m H) as (r & id' & P & Q). exact (N (ran_over _ _ _ _ _ _ _ _ _ _ X P Q O)).
  Qed.

  (** ** Endless executions *)
  Section Endless.
    Context (ro nl : bool) (l0 : list V) (c0 m0 : nat) (cs : nat -> cfg V) (ls : nat -> option (label V)).
    Context (A1 : env_ok E) (A2 : capok E c0 m0) (A3 : length l0 <= c0) (A4 : length l0 < wmod E).
    Hypothesis R0 : reach E (client E ro nl (length l0)) (start l0 c0 m0) (cs 0).
    Hypothesis N : Fair.endless E (client E ro nl (length l0)) cs ls.
    Lemma cs_reach n : reach E (client E ro nl (length l0)) (start l0 c0 m0) (cs n).
    Proof. induction n as [|n IH]; [exact R0|]. pose proof (N n) as T. unfold Fair.tick in T. destruct (ls n) as [l|]; [|now rewrite T]. destruct T. econstructor; eauto. Qed.

    Context (w0 : wcfg V) (X0 : wexecution E ro l0 c0 m0 w0) (S0 : sim (length l0) (cs 0) w0).
    Fixpoint mirror (n : nat) : wcfg V :=
      match n with
      | 0 => w0
      | S n => match ls n with
               | Some l => match wstep E (mirror n) (follow (mirror n) l) with WNext w => w | _ => mirror n end
               | None => mirror n
               end
      end.
    Definition mirror_label (n : nat) : option (wlabel V) :=
      match ls n with Some l => Some (follow (mirror n) l) | None => None end.
    Lemma mirror_ok n : wexecution E ro l0 c0 m0 (mirror n) /\ sim (length l0) (cs n) (mirror n) /\ tick E (wclient E ro) (mirror n) (mirror_label n) (mirror (S n)) /\
      exists h', hist (cs (S n)) = hist (cs n) ++ h' /\
        forall k cur, visible (match mirror_label n with Some l => wevents E k cur (mirror n) l | None => [] end) = visible h'.
    Proof.
      assert (K : forall n, wexecution E ro l0 c0 m0 (mirror n) /\ sim (length l0) (cs n) (mirror n) ->
        tick E (wclient E ro) (mirror n) (mirror_label n) (mirror (S n)) /\ sim (length l0) (cs (S n)) (mirror (S n)) /\
        exists h', hist (cs (S n)) = hist (cs n) ++ h' /\
          forall k cur, visible (match mirror_label n with Some l => wevents E k cur (mirror n) l | None => [] end) = visible h').
      { intros m [Xm Sm]. pose proof (N m) as T. unfold Fair.tick, tick, mirror_label in *. cbn [mirror]. destruct (ls m) as [l|].
        - destruct T as [Cl St]. assert (X : execution E ro nl l0 c0 m0 (cs m)) by (repeat (split; [assumption|]); apply cs_reach).
          destruct (sim_step _ _ _ _ _ _ _ _ _ X Xm Sm Cl St) as (Wc & w' & Sw & S' & h' & Hh & Hv). rewrite Sw. split; [auto|]. split; [exact S'|]. eauto.
        - rewrite T. split; [reflexivity|]. split; [exact Sm|]. exists []. rewrite app_nil_r. auto. }
      assert (H : wexecution E ro l0 c0 m0 (mirror n) /\ sim (length l0) (cs n) (mirror n)).
      { induction n as [|n IH]; [split; [exact X0|exact S0]|]. destruct (K n IH) as (T & S' & _). split; [|exact S'].
        destruct IH as [(B1 & B2 & B3 & B4 & B5) _]. repeat (split; [assumption|]). unfold tick in T. destruct (mirror_label n) as [l|]; [|now rewrite T]. destruct T. econstructor; eauto. }
      destruct (K n H) as (T & _ & Q). destruct H. auto.
    Qed.
    Lemma mirror_fair : Fair.fair cs ls -> fair mirror mirror_label.
    Proof.
      intros F n t y Ly. destruct (mirror_ok n) as (Xn & Sn & _). assert (X : execution E ro nl l0 c0 m0 (cs n)) by (repeat (split; [assumption|]); apply cs_reach).
      destruct (proj1 (sim_open _ _ _ _ _ _ _ X Sn t (wc_id y) (wc_op y)) ltac:(exists y; auto)) as (id & O & _).
      destruct (F n id t (wc_op y) O) as (m & Hm & Hl). exists m. split; [exact Hm|]. unfold mirror_label. now rewrite Hl.
    Qed.
  End Endless.
End Simul.
