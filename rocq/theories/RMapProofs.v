(** RMap refines its specification. *)
From Verif Require Import Base BaseProofs Util UtilProofs Bucket TrieProofs TrieInv TrieGrow MapModel ItemProofs MapInv MapSplit MapStep
  MapInit Spec MapRefine MapAny MapMore RMapModel RSpec.
From Coq Require Import ZifyBool Sorted Permutation.
Local Open Scope Z_scope.
Local Open Scope list_scope.
Local Opaque reverse64 level_of base find_bucket.

(** * Finite maps *)
Lemma pair_eqbP p q : reflect (p = q) (pair_eqb p q).
Proof. apply iff_reflect. symmetry. apply pair_eqb_eq. Qed.
Lemma fget_in p v l : NoDup (map fst l) -> (fget p l = Some v <-> In (p, v) l).
Proof.
  induction l as [|[q w] l IH]; cbn [fget map fst In]; intros N; [split; [discriminate|tauto]|].
  inversion N as [|? ? N1 N2]; subst. destruct (pair_eqbP q p) as [->|NE].
  - split; [intros E; injection E as ->; auto|]. intros [E|E]; [injection E as ->; auto|].
    exfalso. apply N1. apply (in_map fst) in E. exact E.
  - rewrite IH by auto. split; auto. intros [E|E]; auto. congruence.
Qed.
Lemma fget_none p l : fget p l = None <-> ~ In p (map fst l).
Proof.
  induction l as [|[q w] l IH]; cbn [fget map fst In]; [tauto|].
  destruct (pair_eqbP q p) as [->|NE]; [split; [discriminate|tauto]|]. rewrite IH. tauto.
Qed.
Lemma fget_app p l1 l2 : fget p (l1 ++ l2) = match fget p l1 with Some v => Some v | None => fget p l2 end.
Proof. induction l1 as [|[q w] l1 IH]; cbn [app fget]; auto. destruct (pair_eqb q p); auto. Qed.
Lemma fset_fst_in p v l : In p (map fst l) -> map fst (fset p v l) = map fst l.
Proof.
  induction l as [|[q w] l IH]; cbn [fset map fst In]; [tauto|]. intros [->|H].
  - destruct (pair_eqbP p p); [|congruence]. reflexivity.
  - destruct (pair_eqb q p); auto. cbn [map fst]. rewrite IH; auto.
Qed.
Lemma fset_new p v l : ~ In p (map fst l) -> fset p v l = l ++ [(p, v)].
Proof.
  induction l as [|[q w] l IH]; cbn [fset map fst In app]; auto. intros H.
  destruct (pair_eqbP q p); [tauto|]. rewrite IH by tauto. auto.
Qed.
Lemma fget_fset p v l q : fget q (fset p v l) = if pair_eqb p q then Some v else fget q l.
Proof.
  induction l as [|[a w] l IH]; cbn [fset fget]; auto. destruct (pair_eqbP a p) as [->|N]; cbn [fget].
  - destruct (pair_eqbP p q); auto.
  - rewrite IH. destruct (pair_eqbP a q) as [->|]; auto. destruct (pair_eqbP p q); congruence.
Qed.
Lemma fget_fdel p l q : fget q (fdel p l) = if pair_eqb p q then None else fget q l.
Proof.
  induction l as [|[a w] l IH]; cbn [fdel filter fget fst]; [destruct (pair_eqb p q); auto|].
  destruct (pair_eqbP a p) as [->|N]; cbn [negb]; fold (fdel p l).
  - rewrite IH. destruct (pair_eqbP p q); auto.
  - cbn [fget]. rewrite IH. destruct (pair_eqbP a q) as [->|]; auto. destruct (pair_eqbP p q); congruence.
Qed.
Lemma fdel_in p l q v : In (q, v) (fdel p l) <-> In (q, v) l /\ q <> p.
Proof.
  unfold fdel. rewrite filter_In. cbn [fst]. destruct (pair_eqbP q p); cbn [negb]; split; intros [A B]; split; auto; congruence.
Qed.
Lemma nodup_filter {A B} (f : A -> bool) (g : A -> B) l : NoDup (map g l) -> NoDup (map g (filter f l)).
Proof.
  induction l as [|x l IH]; cbn [map filter]; intros N; auto. inversion N as [|? ? N1 N2]; subst.
  destruct (f x); auto. cbn [map]. constructor; auto. intros H. apply N1. apply in_map_iff in H as (y & E & Hy).
  apply filter_In in Hy as [Hy _]. apply in_map_iff. eauto.
Qed.
Lemma fdel_none p l : ~ In p (map fst l) -> fdel p l = l.
Proof.
  induction l as [|[q w] l IH]; cbn [fdel filter map fst In]; auto. intros H.
  destruct (pair_eqbP q p); [tauto|]. cbn [negb]. fold (fdel p l). rewrite IH by tauto. auto.
Qed.
Lemma fdel_size p l : NoDup (map fst l) -> In p (map fst l) -> size (fdel p l) = size l - 1.
Proof.
  unfold size. induction l as [|[q w] l IH]; cbn [fdel filter map fst In]; [tauto|]. intros N H.
  inversion N as [|? ? N1 N2]; subst. destruct (pair_eqbP q p) as [->|NE]; cbn [negb]; fold (fdel p l).
  - rewrite fdel_none by auto. cbn [List.length]. lia.
  - destruct H as [H|H]; [congruence|]. cbn [List.length]. specialize (IH N2 H). lia.
Qed.

(** * Go maps as lists *)
Definition rflat (x : Z * ritem) : (Z * Z) * gval := ((fst x, ri_conf (snd x)), ri_val (snd x)).
Lemma rassoc_in k x l : NoDup (map fst l) -> (rassoc k l = Some x <-> In (k, x) l).
Proof.
  induction l as [|[q w] l IH]; cbn [rassoc map fst In]; intros N; [split; [discriminate|tauto]|].
  inversion N as [|? ? N1 N2]; subst. destruct (Z.eqb_spec q k) as [->|NE].
  - split; [intros E; injection E as ->; auto|]. intros [E|E]; [injection E as ->; auto|].
    exfalso. apply N1. apply (in_map fst) in E. exact E.
  - rewrite IH by auto. split; auto. intros [E|E]; auto. congruence.
Qed.
Lemma rput_new k x l : ~ In k (map fst l) -> rput k x l = l ++ [(k, x)].
Proof.
  induction l as [|[q w] l IH]; cbn [rput map fst In app]; auto. intros H.
  destruct (Z.eqb_spec q k); [tauto|]. rewrite IH by tauto. auto.
Qed.
Definition rent (e : entry) : Z * ritem := (key_in_hmap (e_rev e), mkRI (e_conf e) (e_val e)).
Lemma gather_app items : forall m, NoDup (map fst (m ++ map rent (filter live items))) ->
  gather items m = m ++ map rent (filter live items).
Proof.
  induction items as [|e items IH]; intros m N; cbn [filter map] in *.
  - unfold gather. cbn. rewrite app_nil_r. auto.
  - unfold gather. cbn [fold_left]. fold (gather items). unfold live in N at 1. unfold live at 1.
    destruct (ignored e) eqn:EI; cbn [negb] in *.
    + apply IH; auto.
    + cbn [map] in *. fold (gather items (rput (key_in_hmap (e_rev e)) (mkRI (e_conf e) (e_val e)) m)).
      rewrite rput_new.
      * change (key_in_hmap (e_rev e), mkRI (e_conf e) (e_val e)) with (rent e). rewrite IH.
        -- rewrite <- app_assoc. auto.
        -- rewrite <- app_assoc. auto.
      * rewrite map_app in N. cbn [map] in N. apply NoDup_remove_2 in N. intros H. apply N. apply in_or_app. left. exact H.
Qed.

(** * The relation *)
Definition kdist (l : fmap) : Prop := NoDup (map (fun x => fst (fst x)) l).
Lemma kdist_nodup l : kdist l -> NoDup (map fst l).
Proof. unfold kdist. rewrite <- map_map. apply NoDup_map_inv. Qed.

Record dholds (d : mstate) (pend : fmap) (m : smap) : Prop := {
  dh_holds : holds d m;
  dh_view : sm_view m = KSample;
  dh_len : sm_created m = size pend;
  dh_rg : ranged_map m;
  dh_at : forall p, option_map bd_val (sm_map m p) = fget p pend }.

Definition rd_of (r : rstate) : rread := match r_read r with Some rd => rd | None => mkRR [] false end.
Record rq (r : rstate) (q : rspec) : Prop := {
  rq_set : q_set q = match r_read r with Some _ => true | None => false end;
  rq_am : rr_am (rd_of r) = q_am q;
  rq_mi : r_miss r = q_miss q;
  rq_prom : Permutation (map rflat (rr_m (rd_of r))) (q_prom q);
  rq_dirty : exists m, dholds (r_dirty r) (q_pend q) m;
  rq_dist : kdist (q_prom q ++ q_pend q);
  rq_idle : q_am q = false -> r_dirty r = init_dirty /\ q_pend q = [];
  rq_fresh : q_prom q = [] -> q_am q = false }.

(** nothing stored collides with (k, c) *)
Definition ncol (q : rspec) (k c : Z) : Prop := forall c', In (k, c') (map fst (q_prom q ++ q_pend q)) -> c' = c.

Lemma nodup_parts {A} (l1 l2 : list A) : NoDup (l1 ++ l2) -> NoDup l1 /\ NoDup l2 /\ (forall x, In x l1 -> ~ In x l2).
Proof.
  induction l1 as [|x l1 IH]; cbn [app]; intros N; [split; [constructor|]; split; auto|].
  inversion N as [|? ? N1 N2]; subst. destruct (IH N2) as (A1 & A2 & A3). split; [constructor; auto|].
  - intros H. apply N1, in_or_app; auto.
  - split; auto. intros y [<-|Hy]; auto. intros H. apply N1, in_or_app; auto.
Qed.
Lemma kdist_app_l l1 l2 : kdist (l1 ++ l2) -> kdist l1.
Proof. unfold kdist. rewrite map_app. intros N. apply nodup_parts in N. tauto. Qed.
Lemma kdist_app_r l1 l2 : kdist (l1 ++ l2) -> kdist l2.
Proof. unfold kdist. rewrite map_app. intros N. apply nodup_parts in N. tauto. Qed.
Lemma rm_nodup r q : rq r q -> NoDup (map fst (rr_m (rd_of r))).
Proof.
  intros H. pose proof (kdist_app_l _ _ (rq_dist _ _ H)) as D. unfold kdist in D.
  assert (E : map fst (rr_m (rd_of r)) = map (fun x => fst (fst x)) (map rflat (rr_m (rd_of r)))) by (rewrite map_map; reflexivity).
  rewrite E. eapply Permutation_NoDup; [|exact D]. apply Permutation_sym, Permutation_map, (rq_prom _ _ H).
Qed.
Lemma rassoc_prom r q k c : rq r q -> ncol q k c ->
  match fget (k, c) (q_prom q) with
  | Some v => rassoc k (rr_m (rd_of r)) = Some (mkRI c v)
  | None => rassoc k (rr_m (rd_of r)) = None
  end.
Proof.
  intros H NC. pose proof (rm_nodup _ _ H) as N. pose proof (kdist_nodup _ (kdist_app_l _ _ (rq_dist _ _ H))) as N2.
  destruct (fget (k, c) (q_prom q)) as [v|] eqn:E.
  - apply rassoc_in; auto. apply fget_in in E; auto.
    apply (Permutation_in _ (Permutation_sym (rq_prom _ _ H))) in E. apply in_map_iff in E as ([k' [c' v']] & E & Hin).
    unfold rflat in E. cbn in E. injection E as -> -> ->. auto.
  - destruct (rassoc k _) as [[c' v']|] eqn:E2; auto. exfalso. apply rassoc_in in E2; auto.
    apply (in_map rflat) in E2. apply (Permutation_in _ (rq_prom _ _ H)) in E2. unfold rflat in E2. cbn in E2.
    assert (c' = c). { apply NC. rewrite map_app. apply in_or_app. left. apply (in_map fst) in E2. exact E2. }
    subst c'. apply fget_none in E. apply E. apply (in_map fst) in E2. exact E2.
Qed.
Lemma perm_nil {A} (l : list A) l' : Permutation l l' -> l = [] <-> l' = [].
Proof. intros P. split; intros ->; [apply Permutation_nil in P|apply Permutation_sym, Permutation_nil in P]; auto. Qed.

(** the live items of the inner map are the pending ones *)
Lemma dholds_live d pend m : dholds d pend m -> kdist pend ->
  Permutation (map rflat (map rent (filter live (m_items d)))) pend.
Proof.
  intros D K. destruct (holds_bindings d m (dh_holds _ _ _ D) (dh_rg _ _ _ D)) as [S B].
  set (P := map binding_of (filter live (m_items d))) in *.
  assert (E : map rflat (map rent (filter live (m_items d))) = map (fun x => (fst x, bd_val (snd x))) P).
  { unfold P. rewrite !map_map. apply map_ext. intros e. reflexivity. }
  rewrite E. apply NoDup_Permutation.
  - apply NoDup_map_inv with (f := fst). rewrite map_map. cbn [fst].
    assert (NDS : forall l : list ((Z * Z) * binding), StronglySorted (fun a b => reverse64 (fst (fst a)) < reverse64 (fst (fst b))) l -> NoDup (map fst l)).
    { clear. induction 1 as [|x l S IH F]; cbn [map]; constructor; auto. intros H. apply in_map_iff in H as (y & Ey & Hy).
      rewrite Forall_forall in F. specialize (F y Hy). rewrite Ey in F. lia. }
    apply NDS. exact S.
  - apply NoDup_map_inv with (f := fst). apply kdist_nodup; auto.
  - intros [p v]. rewrite <- (fget_in p v pend) by (apply kdist_nodup; auto). rewrite <- (dh_at _ _ _ D). rewrite in_map_iff.
    split.
    + intros ([p' b] & E' & Hin). cbn [fst snd] in E'. injection E' as -> <-. apply B in Hin. rewrite Hin. reflexivity.
    + intros E'. destruct (sm_map m p) as [b|] eqn:EM; [|discriminate]. cbn in E'. injection E' as <-.
      exists (p, b). split; auto. apply B; auto.
Qed.

(** promotion *)
Lemma init_dholds : exists m, dholds init_dirty [] m.
Proof.
  exists (sm_empty KSample). constructor; auto.
  - apply new_map_holds.
  - intros k c N. exfalso. apply N. reflexivity.
Qed.
Lemma promote_gather r q : rq r q ->
  let nm := gather (m_items (r_dirty r)) (rr_m (rd_of r)) in
  Permutation (map rflat nm) (q_prom q ++ q_pend q).
Proof.
  intros H nm. destruct (rq_dirty _ _ H) as (m & D).
  pose proof (dholds_live _ _ _ D (kdist_app_r _ _ (rq_dist _ _ H))) as P.
  assert (PP : Permutation (map rflat (rr_m (rd_of r) ++ map rent (filter live (m_items (r_dirty r))))) (q_prom q ++ q_pend q)).
  { rewrite map_app. apply Permutation_app; auto. apply (rq_prom _ _ H). }
  unfold nm. rewrite gather_app; auto.
  pose proof (rq_dist _ _ H) as K. unfold kdist in K.
  assert (E : forall l, map fst l = map (fun x => fst (fst x)) (map rflat l)) by (intros l; rewrite map_map; reflexivity).
  rewrite E. eapply Permutation_NoDup; [|exact K]. apply Permutation_sym, Permutation_map. exact PP.
Qed.
Lemma promote_rq r q am : rq r q -> r_read r = Some (rd_of r) -> q_prom q <> [] ->
  promote r (rd_of r) am = mkR (Some (mkRR (gather (m_items (r_dirty r)) (rr_m (rd_of r))) am)) init_dirty (r_miss r) /\
  rq (promote r (rd_of r) am) (mkQ true (q_prom q ++ q_pend q) [] am (q_miss q)).
Proof.
  intros H ER NE. pose proof (promote_gather r q H) as P. cbv zeta in P. unfold promote.
  set (nm := gather _ _) in *.
  assert (N1 : nm <> []). { intros E. rewrite E in P. apply Permutation_nil in P. apply app_eq_nil in P as [P _]. auto. }
  assert (N2 : rr_m (rd_of r) <> []). { intros E. pose proof (rq_prom _ _ H) as P2. rewrite E in P2. apply Permutation_nil in P2. auto. }
  destruct nm as [|x nm'] eqn:EN; [congruence|]. destruct (rr_m (rd_of r)) as [|y m'] eqn:EM; [congruence|].
  split; auto. constructor; cbn [r_read r_dirty r_miss rd_of rr_m rr_am q_set q_prom q_pend q_am q_miss]; auto.
  - apply (rq_mi _ _ H).
  - apply init_dholds.
  - rewrite app_nil_r. apply (rq_dist _ _ H).
  - intros E. apply app_eq_nil in E as [E _]. congruence.
Qed.
Lemma not_restore_few r q n : rq r q -> not_restore r (rd_of r) n = few n (q_prom q) (q_pend q).
Proof.
  intros H. unfold not_restore, few, size. destruct (rq_dirty _ _ H) as (m & D).
  rewrite (hd_len _ _ (dh_holds _ _ _ D)), (dh_len _ _ _ D). unfold size.
  rewrite <- (Permutation_length (rq_prom _ _ H)), map_length. auto.
Qed.

(** lookups in the inner map *)
Lemma dget d pend m k c : dholds d pend m -> 0 <= k < W64 ->
  match fget (k, c) pend with
  | Some v => exists l e r, get d k c = Ret (Some (l, e :: r)) /\ m_items d = rev l ++ e :: r /\
                live_at (reverse64 k) (m_items d) = [e] /\ e_conf e = c /\ e_rev e = reverse64 k /\ live e = true /\
                sm_map m (k, c) = Some (bd_of e) /\ e_val e = v
  | None => get d k c = Ret None /\ sm_map m (k, c) = None
  end.
Proof.
  intros D Hk. pose proof (dh_holds _ _ _ D) as H. destruct (get_spec d k c (hd_inv _ _ H)) as (z & EG & F); auto.
  pose proof (lookup_slot d m k c z H Hk F) as L. rewrite <- (dh_at _ _ _ D). destruct (sm_map m (k, c)) as [b|] eqn:EM; cbn [option_map].
  - destruct L as (l & e & r & -> & A1 & A2 & A3 & A4 & A5 & A6). exists l, e, r. subst b. repeat split; auto.
  - subst z. auto.
Qed.
Lemma dholds_put d' pend m' k c v : holds d' m' -> sm_view m' = KSample -> ranged_map m' ->
  (forall p, option_map bd_val (sm_map m' p) = if pair_eqb (k, c) p then Some v else fget p pend) ->
  sm_created m' = size (fset (k, c) v pend) -> dholds d' (fset (k, c) v pend) m'.
Proof. intros H V R A L. constructor; auto. intros p. rewrite A, fget_fset. auto. Qed.

(** Set of a new key in the inner map *)
Lemma dstore h d pend m x k c v : dholds d pend m -> key_to_hash h (KStr x) = Some (k, c) ->
  (forall c', In (k, c') (map fst pend) -> c' = c) -> fget (k, c) pend = None ->
  ~ In (reverse64 k) (dump_bucket d) -> k <> 2 ^ 63 - 1 -> k <> 2 ^ 64 - 1 ->
  exists d' m', store h d (new_sample x v) = (d', RBool true) /\ dholds d' (fset (k, c) v pend) m'.
Proof.
  intros D EK NC FN HB H1 H2. destruct (key_range _ _ _ _ EK) as [Hk Hc].
  assert (NM : forall c', sm_map m (k, c') = None).
  { intros c'. destruct (sm_map m (k, c')) as [b|] eqn:EM; auto. exfalso.
    pose proof (dh_at _ _ _ D (k, c')) as E. rewrite EM in E. cbn in E. symmetry in E.
    assert (c' = c). { apply NC. destruct (in_dec (fun a b => Bool.reflect_dec _ _ (pair_eqbP a b)) (k, c') (map fst pend)) as [Y|Y]; auto. apply fget_none in Y. congruence. }
    subst. congruence. }
  destruct (step_ok h d m (OpStore (new_sample x v)) (dh_holds _ _ _ D)) as [SH SO].
  { split; [cbn; auto|]. cbn [writes new_sample i_key]. rewrite EK. right. auto. }
  cbn [step sm_step new_sample i_key i_kind i_val] in SH, SO. rewrite EK in SH, SO. rewrite NM in SH, SO. cbn [fst snd] in SH, SO.
  change (mkI KSample (KStr x) v 0 0 false) with (new_sample x v) in *.
  destruct (store h d (new_sample x v)) as [d' o] eqn:ES. cbn [fst snd] in *. subst o.
  eexists d', _. split; [reflexivity|]. apply (dholds_put d' pend _ k c v SH).
  - apply (dh_view _ _ _ D).
  - intros k' c'. cbn [sm_map]. unfold sm_put. destruct (pair_eqbP (k, c) (k', c')) as [E|].
    + injection E as <- <-. auto.
    + apply (dh_rg _ _ _ D).
  - intros p. cbn [sm_map]. unfold sm_put. destruct (pair_eqb (k, c) p); auto. apply (dh_at _ _ _ D).
  - cbn [sm_created]. rewrite (dh_len _ _ _ D). rewrite fset_new by (apply fget_none; auto). unfold size. rewrite app_length. cbn [List.length]. lia.
Qed.
(** Set of a pending key *)
Lemma dupdate d pend m k c v old : dholds d pend m -> 0 <= k < W64 -> fget (k, c) pend = Some old ->
  exists z, get d k c = Ret (Some z) /\
  match assign KSample old v with
  | None => snd (update d z v) = RPanic
  | Some (v', ok) => snd (update d z v) = RBool ok /\ exists m', dholds (fst (update d z v)) (fset (k, c) v' pend) m'
  end.
Proof.
  intros D Hk FG. pose proof (dget d pend m k c D Hk) as G. rewrite FG in G.
  destruct G as (l & e & r & EG & A1 & A2 & A3 & A4 & A5 & A6 & A7). exists (l, e :: r). split; auto.
  destruct (holds_update d m k c l e r v (bd_of e) (dh_holds _ _ _ D) Hk A1 A2 A3 A4 A5 eq_refl) as [HH HO].
  unfold sm_update in HH, HO. rewrite (dh_view _ _ _ D) in HH, HO. cbn [bd_of bd_val] in HH, HO. rewrite A7 in HH, HO.
  destruct (assign KSample old v) as [[v' ok]|]; cbn [fst snd] in *; auto. split; auto. eexists.
  apply (dholds_put _ pend _ k c v' HH).
  - reflexivity.
  - intros k' c'. cbn [sm_map]. unfold sm_put. destruct (pair_eqbP (k, c) (k', c')) as [E|].
    + injection E as <- <-. auto.
    + apply (dh_rg _ _ _ D).
  - intros p. cbn [sm_map]. unfold sm_put. destruct (pair_eqb (k, c) p); auto. apply (dh_at _ _ _ D).
  - cbn [sm_created]. rewrite (dh_len _ _ _ D). unfold size. f_equal.
    rewrite <- (map_length fst), <- (map_length fst (fset _ _ _)), fset_fst_in; auto.
    destruct (in_dec (fun a b => Bool.reflect_dec _ _ (pair_eqbP a b)) (k, c) (map fst pend)) as [Y|Y]; auto.
    apply fget_none in Y. congruence.
Qed.
(** Delete of a pending key *)
Lemma ddelete d pend m k c l e r : dholds d pend m -> 0 <= k < W64 -> kdist pend ->
  m_items d = rev l ++ e :: r -> live_at (reverse64 k) (m_items d) = [e] -> e_conf e = c -> e_rev e = reverse64 k -> live e = true ->
  sm_map m (k, c) = Some (bd_of e) ->
  exists m', dholds (set_len (set_items d (upd_cur (l, e :: r) (del_entry (m_view d)))) (m_len d - 1)) (fdel (k, c) pend) m'.
Proof.
  intros D Hk KD A1 A2 A3 A4 A5 A6.
  assert (FG : In (k, c) (map fst pend)).
  { destruct (in_dec (fun a b => Bool.reflect_dec _ _ (pair_eqbP a b)) (k, c) (map fst pend)) as [Y|Y]; auto.
    apply fget_none in Y. rewrite <- (dh_at _ _ _ D), A6 in Y. discriminate. }
  rewrite upd_cur_eq.
  assert (HR : holds (set_items d (rev l ++ del_entry (m_view d) e :: r)) (mkSM (sm_put m (k, c) None) (sm_view m) (sm_created m))).
  { eapply holds_replace; eauto; try apply (dh_holds _ _ _ D); try reflexivity.
    assert (E : live (del_entry (m_view d) e) = false).
    { unfold live, ignored, del_entry. cbn [e_dummy e_del]. destruct (e_dummy e); auto. }
    rewrite E. auto. }
  exists (mkSM (sm_put m (k, c) None) KSample (sm_created m - 1)). constructor; cbn [sm_view sm_created sm_map].
  - destruct HR as [I V L A]. rewrite (dh_view _ _ _ D) in V. constructor; auto.
    + destruct I; constructor; auto.
    + cbn [set_len m_len]. rewrite (hd_len _ _ (dh_holds _ _ _ D)). auto.
  - reflexivity.
  - rewrite (dh_len _ _ _ D), fdel_size; auto. apply kdist_nodup; auto.
  - intros k' c'. cbn [sm_map]. unfold sm_put. destruct (pair_eqbP (k, c) (k', c')) as [E|]; [congruence|]. apply (dh_rg _ _ _ D).
  - intros p. unfold sm_put. rewrite fget_fdel. destruct (pair_eqb (k, c) p); auto. apply (dh_at _ _ _ D).
Qed.

(** * The step *)
Lemma rq_new : rq new_rmap q_new.
Proof.
  constructor; cbn; auto.
  - apply init_dholds.
  - constructor.
Qed.
Lemma rd_of_mk rd d n : rd_of (mkR (Some rd) d n) = rd.
Proof. reflexivity. Qed.
Lemma rd_set_dirty r d : rd_of (set_dirty r d) = rd_of r.
Proof. destruct r. reflexivity. Qed.

Definition started (r : rstate) : rstate :=
  match r_read r with Some _ => r | None => mkR (Some (mkRR [] false)) (r_dirty r) (r_miss r) end.
Lemma started_read r : r_read (started r) = Some (rd_of (started r)).
Proof. unfold started, rd_of. destruct (r_read r) as [rd|] eqn:E; cbn [r_read]; [rewrite E|]; auto. Qed.
Lemma started_rq r q : rq r q -> rq (started r) (mkQ true (q_prom q) (q_pend q) (q_am q) (q_miss q)).
Proof.
  intros H. assert (ED : r_dirty (started r) = r_dirty r) by (unfold started; destruct (r_read r); auto).
  assert (EM : r_miss (started r) = r_miss r) by (unfold started; destruct (r_read r); auto).
  assert (ER : rd_of (started r) = rd_of r).
  { unfold started, rd_of. destruct (r_read r) eqn:E; cbn [r_read]; [rewrite E|]; auto. }
  constructor; cbn [q_set q_prom q_pend q_am q_miss]; rewrite ?ED, ?EM, ?ER; try apply H.
  rewrite started_read. auto.
Qed.
Lemma rq_unset r q : rq r q -> q_set q = false -> q_prom q = [].
Proof.
  intros H E. pose proof (rq_set _ _ H) as S. pose proof (rq_prom _ _ H) as P. unfold rd_of in P.
  destruct (r_read r); [congruence|]. cbn in P. apply Permutation_nil in P. auto.
Qed.

Lemma match_nn {A B} (l : list A) (a b : B) : l <> [] -> match l with [] => a | _ :: _ => b end = b.
Proof. destruct l; congruence. Qed.
Lemma rset_ok h r q x v k c : rq r q -> key_to_hash h (KStr x) = Some (k, c) -> ncol q k c ->
  (fget (k, c) (q_prom q) <> None \/ fget (k, c) (q_pend q) <> None \/
   (~ In (reverse64 k) (dump_bucket (r_dirty r)) /\ k <> 2 ^ 63 - 1 /\ k <> 2 ^ 64 - 1)) ->
  snd (rstep h r (RSet x v)) = snd (q_step h q (RSet x v)) /\
  rq (fst (rstep h r (RSet x v))) (fst (q_step h q (RSet x v))).
Proof.
  intros H EK NC COV. destruct (key_range _ _ _ _ EK) as [Hk Hc]. cbn [rstep q_step]. rewrite EK.
  pose proof (started_rq r q H) as H0. unfold rset. fold (started r). rewrite (started_read r).
  set (r0 := started r) in *. set (q0 := mkQ true (q_prom q) (q_pend q) (q_am q) (q_miss q)) in *.
  assert (NC0 : ncol q0 k c) by exact NC.
  assert (SR0 : r_read r0 = Some (rd_of r0)) by apply started_read.
  pose proof (rassoc_prom r0 q0 k c H0 NC0) as RA. cbn [q0 q_prom] in RA.
  assert (ED : r_dirty r0 = r_dirty r) by (unfold r0, started; destruct (r_read r); auto).
  assert (SET : q_prom q <> [] -> q = q0).
  { intros N. destruct (q_set q) eqn:ES; [destruct q; cbn in *; subst; reflexivity|]. exfalso. apply N. eapply rq_unset; eauto. }
  destruct (fget (k, c) (q_prom q)) as [w|] eqn:FP.
  { rewrite RA. cbn [fst snd]. split; auto. rewrite SET; auto. intros E. rewrite E in FP. discriminate. }
  rewrite RA. destruct (rq_dirty _ _ H0) as (m & D). cbn [q0 q_pend] in D.
  destruct (fget (k, c) (q_pend q)) as [old|] eqn:FG.
  - assert (NP : q_prom q <> []).
    { intros E. destruct (rq_idle _ _ H) as [_ E2]; [apply (rq_fresh _ _ H E)|]. rewrite E2 in FG. discriminate. }
    destruct (dupdate (r_dirty r0) (q_pend q) m k c v old D Hk FG) as (z & EG & U). rewrite EG.
    destruct (assign KSample old v) as [[v' ok]|] eqn:EA.
    + destruct U as [U1 (m' & U2)]. destruct (update (r_dirty r0) z v) as [d o]. cbn [fst snd] in U1, U2. subst o. cbn [fst snd].
      split; auto. constructor; cbn [q_set q_prom q_pend q_am q_miss set_dirty r_read r_dirty r_miss]; rewrite ?rd_set_dirty.
      * rewrite SR0. auto.
      * apply (rq_am _ _ H0).
      * apply (rq_mi _ _ H0).
      * apply (rq_prom _ _ H0).
      * eauto.
      * pose proof (rq_dist _ _ H) as K. unfold kdist in *. rewrite map_app in *.
        replace (map (fun x0 => fst (fst x0)) (fset (k, c) v' (q_pend q))) with (map (fun x0 => fst (fst x0)) (q_pend q)); auto.
        rewrite <- !(map_map fst fst). rewrite fset_fst_in; auto.
        destruct (in_dec (fun a b => Bool.reflect_dec _ _ (pair_eqbP a b)) (k, c) (map fst (q_pend q))) as [Y|Y]; auto.
        apply fget_none in Y. congruence.
      * intros E. destruct (rq_idle _ _ H E) as [_ E2]. rewrite E2 in FG. discriminate.
      * apply (rq_fresh _ _ H).
    + destruct (update (r_dirty r0) z v) as [d o]. cbn [snd] in U. subst o. cbn [fst snd]. split; auto. rewrite SET; auto.
  - pose proof (dget _ _ _ k c D Hk) as G. rewrite FG in G. destruct G as [EG EM]. rewrite EG.
    destruct COV as [COV|[COV|(CB & C1 & C2)]]; [congruence|congruence|].
    destruct (list_eq_dec (fun a b : (Z * Z) * gval => ltac:(repeat decide equality)) (q_prom q) []) as [E|NP].
    + (* the first key *)
      destruct (rq_idle _ _ H (rq_fresh _ _ H E)) as [ID EP]. rewrite E.
      assert (ERM : rr_m (rd_of r0) = []).
      { pose proof (rq_prom _ _ H0) as P. cbn [q0 q_prom] in P. rewrite E in P. apply Permutation_sym, Permutation_nil, map_eq_nil in P. auto. }
      assert (PR : promote r0 (rd_of r0) true = r0).
      { unfold promote. rewrite ERM, ED, ID. reflexivity. }
      rewrite PR. rewrite ERM.
      replace (if rr_am (rd_of r0) then r0 else r0) with r0 by (destruct (rr_am _); auto).
      rewrite EP in D.
      destruct (dstore h (r_dirty r0) [] m x k c v D EK) as (d' & m' & ES & D'); auto.
      { intros c0 []. } { rewrite ED; auto. }
      rewrite ES. cbn [fst snd]. split; auto. change (r_read (set_dirty r0 d')) with (r_read r0). rewrite SR0.
      unfold promote. cbn [set_dirty r_dirty r_miss]. rewrite ERM.
      assert (KD : kdist (fset (k, c) v [])) by (cbn; repeat constructor; intros []).
      pose proof (dholds_live _ _ _ D' KD) as PL. cbn [fset] in PL.
      assert (GA : gather (m_items d') [] = map rent (filter live (m_items d'))).
      { rewrite gather_app; auto. cbn [app].
        assert (E1 : forall l, map fst l = map (fun x => fst (fst x)) (map rflat l)) by (intros l; rewrite map_map; reflexivity).
        rewrite E1. eapply Permutation_NoDup; [apply Permutation_map, Permutation_sym; exact PL|]. cbn. repeat constructor; intros []. }
      rewrite GA. destruct (map rent (filter live (m_items d'))) as [|y [|y2 l2]] eqn:EL.
      * apply Permutation_nil in PL. discriminate.
      * cbn [map] in PL. apply Permutation_length_1_inv in PL.
        constructor; cbn [q_set q_prom q_pend q_am q_miss r_read r_dirty r_miss rd_of rr_m rr_am map]; auto.
        -- apply (rq_mi _ _ H0).
        -- rewrite PL. apply Permutation_refl.
        -- apply init_dholds.
        -- discriminate.
      * apply Permutation_length in PL. discriminate.
    + (* a further key *)
      assert (NRM : rr_m (rd_of r0) <> []).
      { intros E. pose proof (rq_prom _ _ H0) as P. rewrite E in P. apply Permutation_nil in P. auto. }
      rewrite (match_nn (q_prom q)) by exact NP.
      set (r1 := if rr_am (rd_of r0) then r0 else promote r0 (rd_of r0) true).
      assert (H1 : rq r1 (mkQ true (q_prom q) (q_pend q) true (q_miss q)) /\ r_read r1 = Some (rd_of r1) /\ ~ In (reverse64 k) (dump_bucket (r_dirty r1))).
      { unfold r1. destruct (rr_am (rd_of r0)) eqn:EA.
        - assert (EQ : q_am q = true) by (pose proof (rq_am _ _ H0) as X; cbn [q0 q_am] in X; congruence).
          assert (QE : q0 = mkQ true (q_prom q) (q_pend q) true (q_miss q)) by (unfold q0; rewrite EQ; auto).
          rewrite <- QE. split; auto. split; [apply started_read|]. rewrite ED; auto.
        - assert (EQ : q_am q = false) by (pose proof (rq_am _ _ H0) as X; cbn [q0 q_am] in X; congruence).
          destruct (rq_idle _ _ H EQ) as [ID EP].
          destruct (promote_rq r0 q0 true H0 (started_read r) NP) as [P1 P2]. cbn [q0 q_prom q_pend q_miss] in P2.
          rewrite EP in *. rewrite app_nil_r in P2. split; [exact P2|]. rewrite P1. split; [reflexivity|]. cbn [r_dirty]. rewrite <- ID. auto. }
      destruct H1 as (H1 & R1 & B1). destruct (rq_dirty _ _ H1) as (m1 & D1). cbn [q_pend] in D1.
      destruct (dstore h (r_dirty r1) (q_pend q) m1 x k c v D1 EK) as (d' & m' & ES & D'); auto.
      { intros c' Hc'. apply NC. rewrite map_app. apply in_or_app; auto. }
      rewrite ES. destruct (rr_m (rd_of r0)) as [|y1 m0] eqn:ERM; [congruence|]. cbn [fst snd]. split; auto.
      rewrite fset_new in * by (apply fget_none; auto).
      constructor; cbn [q_set q_prom q_pend q_am q_miss set_dirty r_read r_dirty r_miss]; rewrite ?rd_set_dirty.
      * rewrite R1. auto.
      * apply (rq_am _ _ H1).
      * apply (rq_mi _ _ H1).
      * apply (rq_prom _ _ H1).
      * eauto.
      * rewrite app_assoc. unfold kdist. rewrite map_app. cbn [map fst].
        apply (Permutation_NoDup (l := k :: map (fun x0 => fst (fst x0)) (q_prom q ++ q_pend q))).
        -- apply Permutation_cons_append.
        -- constructor; [|apply (rq_dist _ _ H)]. intros Hin. apply in_map_iff in Hin as ([[k' c'] w] & E' & Hin). cbn in E'. subst k'.
           assert (c' = c) by (apply NC; apply (in_map fst) in Hin; exact Hin). subst c'.
           apply (in_map fst) in Hin. rewrite map_app in Hin. apply in_app_or in Hin as [Hin|Hin].
           ++ apply fget_none in FP. tauto.
           ++ apply fget_none in FG. tauto.
      * discriminate.
      * congruence.
Qed.

Lemma rget_ok h r q x k c : rq r q -> key_to_hash h (KStr x) = Some (k, c) -> ncol q k c ->
  snd (rstep h r (RGet x)) = snd (q_step h q (RGet x)) /\
  rq (fst (rstep h r (RGet x))) (fst (q_step h q (RGet x))).
Proof.
  intros H EK NC. destruct (key_range _ _ _ _ EK) as [Hk Hc]. cbn [rstep q_step]. rewrite EK. unfold rget.
  pose proof (rq_set _ _ H) as S. pose proof (rassoc_prom r q k c H NC) as RA.
  destruct (r_read r) as [rd|] eqn:ER; rewrite S; cbn [negb]; [|auto].
  assert (ERD : rd = rd_of r) by (unfold rd_of; rewrite ER; auto). subst rd.
  destruct (fget (k, c) (q_prom q)) as [w|] eqn:FP.
  { rewrite RA. cbn [ri_conf ri_val]. rewrite Z.eqb_refl. auto. }
  rewrite RA, (rq_am _ _ H). destruct (q_am q) eqn:EA; cbn [negb]; auto.
  destruct (rq_dirty _ _ H) as (m & D). pose proof (dget _ _ _ k c D Hk) as G.
  destruct (fget (k, c) (q_pend q)) as [v|] eqn:FG; [|destruct G as [-> _]; auto].
  destruct G as (l & e & rr & -> & _ & _ & _ & _ & _ & _ & EV). cbn [fst snd]. rewrite EV. split; auto.
  rewrite (rq_mi _ _ H), (not_restore_few r q _ H). destruct (few _ _ _).
  - constructor; cbn [set_miss r_read r_dirty r_miss q_set q_prom q_pend q_am q_miss]; auto; try apply H.
    + rewrite ER; auto.
    + rewrite <- EA. apply (rq_am _ _ H).
    + discriminate.
    + rewrite <- EA. apply (rq_fresh _ _ H).
  - assert (NP : q_prom q <> []) by (intros E; rewrite (rq_fresh _ _ H E) in EA; discriminate).
    destruct (promote_rq r q false H ER NP) as [P1 P2]. rewrite P1 in P2. rewrite P1. unfold set_miss. cbn [r_read r_dirty].
    destruct P2. constructor; auto.
Qed.

Lemma rdel_ok h r q x k c : rq r q -> key_to_hash h (KStr x) = Some (k, c) -> ncol q k c ->
  snd (rstep h r (RDel x)) = snd (q_step h q (RDel x)) /\
  rq (fst (rstep h r (RDel x))) (fst (q_step h q (RDel x))).
Proof.
  intros H EK NC. destruct (key_range _ _ _ _ EK) as [Hk Hc]. cbn [rstep q_step]. rewrite EK.
  pose proof (rq_set _ _ H) as S. pose proof (rassoc_prom r q k c H NC) as RA.
  destruct (r_read r) as [rd|] eqn:ER; rewrite S; cbn [negb]; [|unfold rdelete; rewrite ER; auto].
  assert (ERD : rd = rd_of r) by (unfold rd_of; rewrite ER; auto). subst rd.
  destruct (fget (k, c) (q_prom q)) as [w|] eqn:FP.
  { unfold rdelete. rewrite ER, RA. auto. }
  destruct (q_am q) eqn:EA; cbn [negb]; [|unfold rdelete; rewrite ER, RA, (rq_am _ _ H), EA; auto].
  destruct (rq_dirty _ _ H) as (m & D). pose proof (dget _ _ _ k c D Hk) as G.
  assert (KP : kdist (q_pend q)) by (eapply kdist_app_r; apply (rq_dist _ _ H)).
  set (r1 := match get (r_dirty r) k c with Ret (Some z) =>
      set_dirty r (set_len (set_items (r_dirty r) (upd_cur z (del_entry (m_view (r_dirty r))))) (m_len (r_dirty r) - 1)) | _ => r end).
  assert (H1 : rq r1 (mkQ true (q_prom q) (fdel (k, c) (q_pend q)) true (q_miss q)) /\ r_read r1 = r_read r /\ r_miss r1 = r_miss r /\ rd_of r1 = rd_of r).
  { unfold r1. destruct (fget (k, c) (q_pend q)) as [v|] eqn:FG.
    - destruct G as (l & e & rr & EG & A1 & A2 & A3 & A4 & A5 & A6 & A7). rewrite EG.
      destruct (ddelete _ _ _ k c l e rr D Hk KP A1 A2 A3 A4 A5 A6) as (m' & D').
      split; [|auto]. constructor; cbn [set_dirty r_read r_dirty r_miss q_set q_prom q_pend q_am q_miss]; rewrite ?rd_set_dirty; auto; try apply H.
      + rewrite ER; auto.
      + rewrite <- EA. apply (rq_am _ _ H).
      + eauto.
      + pose proof (rq_dist _ _ H) as K. unfold kdist in *. rewrite map_app in *. apply nodup_parts in K as (K1 & K2 & K3).
        assert (K4 : forall (A : Type) (a b : list A), NoDup a -> NoDup b -> (forall x, In x a -> ~ In x b) -> NoDup (a ++ b)).
        { clear. induction a as [|x a IH]; cbn [app]; intros b N1 N2 N3; auto. inversion N1; subst. constructor.
          - intros Hin. apply in_app_or in Hin as [Hin|Hin]; auto. apply (N3 x); cbn; auto.
          - apply IH; auto. intros y Hy. apply N3. right; auto. }
        apply K4; auto.
        * unfold fdel. apply nodup_filter. auto.
        * intros z Hz1 Hz2. apply (K3 z Hz1). unfold fdel in Hz2. apply in_map_iff in Hz2 as (y & Ey & Hy). apply filter_In in Hy as [Hy _].
          apply in_map_iff. eauto.
      + discriminate.
      + intros E. rewrite (rq_fresh _ _ H E) in EA. discriminate.
    - destruct G as [-> _]. split; [|auto]. rewrite fdel_none by (apply fget_none; auto).
      replace (mkQ true (q_prom q) (q_pend q) true (q_miss q)) with q; auto. destruct q; cbn in *; subst; reflexivity. }
  assert (EQ : rdelete r k c = (set_miss r1 (r_miss r1 + 1), if not_restore r1 (rd_of r) (r_miss r1 + 1) then Ret (OBool false) else Div)).
  { unfold rdelete. rewrite ER, RA, (rq_am _ _ H), EA. unfold r1. destruct (fget (k, c) (q_pend q)) as [v|].
    - destruct G as (l & e & rr & -> & _). reflexivity.
    - destruct G as [-> _]. reflexivity. }
  rewrite EQ. destruct H1 as (H1 & E1 & E2 & E3). cbn [fst snd].
  rewrite <- E3. rewrite (not_restore_few r1 _ _ H1). cbn [q_prom q_pend]. rewrite E2, (rq_mi _ _ H). split; auto.
  constructor; cbn [set_miss r_read r_dirty r_miss q_set q_prom q_pend q_am q_miss]; auto; try apply H1.
Qed.

(** * Histories *)
Definition keys_from (h : hashes) (os : list rop) (q : rspec) : Prop :=
  forall p, In p (map fst (q_prom q ++ q_pend q)) -> exists o x, In o os /\ key_of o = Some x /\ key_to_hash h (KStr x) = Some p.
Lemma fset_keys p v l x : In x (map fst (fset p v l)) -> x = p \/ In x (map fst l).
Proof.
  induction l as [|[a w] l IH]; cbn [fset map fst In]; [intros [H|[]]; auto|]. destruct (pair_eqb a p); cbn [map fst In]; auto.
  intros [H|H]; auto. destruct (IH H); auto.
Qed.
Lemma q_step_keys h q o p : In p (map fst (q_prom (fst (q_step h q o)) ++ q_pend (fst (q_step h q o)))) ->
  In p (map fst (q_prom q ++ q_pend q)) \/ exists x, key_of o = Some x /\ key_to_hash h (KStr x) = Some p.
Proof.
  rewrite !map_app, !in_app_iff. destruct o as [x v|x|x|]; cbn [q_step key_of].
  - destruct (key_to_hash h (KStr x)) as [p0|] eqn:EK; [|cbn [fst]; auto].
    destruct (fget p0 (q_prom q)); [cbn [fst]; auto|]. destruct (fget p0 (q_pend q)) as [old|].
    + destruct (assign KSample old v) as [[v' ok]|]; cbn [fst q_prom q_pend]; auto. intros [H|H]; auto.
      apply fset_keys in H as [->|H]; eauto.
    + destruct (q_prom q) as [|y l] eqn:EP; cbn [fst q_prom q_pend].
      * cbn. intros [[<-|[]]|[]]. eauto.
      * intros [H|H]; auto. apply fset_keys in H as [->|H]; eauto.
  - destruct (key_to_hash h (KStr x)) as [p0|] eqn:EK; [|cbn [fst]; auto].
    destruct (q_set q); cbn [negb]; [|cbn [fst]; auto]. destruct (fget p0 (q_prom q)); [cbn [fst]; auto|].
    destruct (q_am q); cbn [negb]; [|cbn [fst]; auto]. destruct (fget p0 (q_pend q)); [|cbn [fst]; auto]. cbn [fst].
    destruct (few _ _ _); cbn [q_prom q_pend]; auto. rewrite map_app, in_app_iff. cbn. tauto.
  - destruct (key_to_hash h (KStr x)) as [p0|] eqn:EK; [|cbn [fst]; auto].
    destruct (q_set q); cbn [negb]; [|cbn [fst]; auto]. destruct (fget p0 (q_prom q)); [cbn [fst]; auto|].
    destruct (q_am q); cbn [negb]; [|cbn [fst]; auto]. cbn [fst q_prom q_pend]. intros [H|H]; auto. left. right.
    unfold fdel in H. apply in_map_iff in H as (y & Ey & Hy). apply filter_In in Hy as [Hy _]. apply in_map_iff. eauto.
  - cbn [fst]. auto.
Qed.
Lemma keys_ncol h os pre q o x k c : r_no_collision h os -> incl pre os -> In o os -> key_of o = Some x ->
  key_to_hash h (KStr x) = Some (k, c) -> keys_from h pre q -> ncol q k c.
Proof.
  intros NC IN Ho EO EK KF c' Hc'. destruct (KF _ Hc') as (o' & x' & Ho' & EO' & EK').
  eapply (NC o' o x' x k c' c); eauto.
Qed.
Lemma found_prom_pend h r q x k c : rq r q -> ncol q k c -> key_to_hash h (KStr x) = Some (k, c) ->
  (found_ok (snd (rstep h r (RGet x))) <-> fget (k, c) (q_prom q) <> None \/ fget (k, c) (q_pend q) <> None).
Proof.
  intros H NC EK. destruct (rget_ok h r q x k c H EK NC) as [-> _]. cbn [q_step]. rewrite EK.
  destruct (q_set q) eqn:ES; cbn [negb].
  - destruct (fget (k, c) (q_prom q)) as [v|] eqn:FP; [split; [left; discriminate|exists v; auto]|].
    destruct (q_am q) eqn:EA; cbn [negb].
    + destruct (fget (k, c) (q_pend q)) as [v|] eqn:FG; cbn [snd].
      * split; [right; discriminate|exists v; auto].
      * split; [intros (v & [E|E]); discriminate|intros [E|E]; congruence].
    + destruct (rq_idle _ _ H EA) as [_ EP]. rewrite EP. cbn. split; [intros (v & [E|E]); discriminate|intros [E|E]; congruence].
  - pose proof (rq_unset _ _ H ES) as E. destruct (rq_idle _ _ H (rq_fresh _ _ H E)) as [_ EP]. rewrite E, EP. cbn.
    split; [intros (v & [X|X]); discriminate|intros [X|X]; congruence].
Qed.
Lemma rstep_ok h os pre r q o : rq r q -> keys_from h pre q -> r_no_collision h os -> incl pre os -> In o os -> r_covered h r o ->
  snd (rstep h r o) = snd (q_step h q o) /\ rq (fst (rstep h r o)) (fst (q_step h q o)) /\ keys_from h (o :: pre) (fst (q_step h q o)).
Proof.
  intros H KF NC IN Ho CV.
  assert (KF' : keys_from h (o :: pre) (fst (q_step h q o))).
  { intros p Hp. apply q_step_keys in Hp as [Hp|(x & E1 & E2)].
    - destruct (KF _ Hp) as (o' & x & A & B & C). exists o', x. split; [right; auto|auto].
    - exists o, x. split; [left; auto|auto]. }
  destruct o as [x v|x|x|]; cbn [key_of] in *.
  - destruct (key_to_hash h (KStr x)) as [[k c]|] eqn:EK; [|discriminate].
    pose proof (keys_ncol h os pre q _ x k c NC IN Ho eq_refl EK KF) as N.
    destruct (rset_ok h r q x v k c H EK N) as [A B]; auto.
    cbn [r_covered] in CV. destruct (CV k c EK) as [F|F]; auto. apply (found_prom_pend h r q x k c H N EK) in F. tauto.
  - destruct (key_to_hash h (KStr x)) as [[k c]|] eqn:EK; [|discriminate].
    pose proof (keys_ncol h os pre q _ x k c NC IN Ho eq_refl EK KF) as N.
    destruct (rget_ok h r q x k c H EK N) as [A B]; auto.
  - destruct (key_to_hash h (KStr x)) as [[k c]|] eqn:EK; [|discriminate].
    pose proof (keys_ncol h os pre q _ x k c NC IN Ho eq_refl EK KF) as N.
    destruct (rdel_ok h r q x k c H EK N) as [A B]; auto.
  - cbn [rstep q_step fst snd]. destruct (rq_dirty _ _ H) as (m & D).
    rewrite (hd_len _ _ (dh_holds _ _ _ D)), (dh_len _ _ _ D). auto.
Qed.
Lemma rrun_ok h all : r_no_collision h all -> forall os pre r q, rq r q -> keys_from h pre q -> incl pre all -> incl os all ->
  r_all_covered h r os ->
  routs h r os = q_outs h q os /\ rq (rrun h r os) (q_run h q os) /\ exists pre', incl pre' all /\ keys_from h pre' (q_run h q os).
Proof.
  intros NC. induction os as [|o os IH]; intros pre r q H KF I1 I2 CV; cbn [routs q_outs rrun q_run]; [eauto|].
  destruct CV as [C1 C2]. destruct (rstep_ok h all pre r q o H KF NC I1 (I2 o (or_introl eq_refl)) C1) as (E & H' & KF').
  rewrite <- E. destruct (rstops (snd (rstep h r o))) eqn:ST; [eauto|].
  destruct C2 as [C2|C2]; [congruence|].
  destruct (IH (o :: pre) _ _ H' KF') as (A & B & C); auto.
  - intros y [<-|Hy]; auto. apply I2; left; auto.
  - intros y Hy. apply I2. right; auto.
  - rewrite A. auto.
Qed.
