(** C79: items of the embedded map that the caller keeps. The model is in EmbHandle.v. *)
From Verif Require Import Base BaseProofs Util UtilProofs Bucket TrieProofs TrieInv TrieGrow MapModel ItemProofs MapInv MapSplit
  MapInit Spec MapRefine EmbModel EmbPool EmbTrie EmbInv EmbSplit EmbSpec EmbRefine EmbDel PurgeSpec EmbPurge PropEmb EmbHandle.
From Coq Require Import ZifyBool Sorted Ascii String.
Local Open Scope Z_scope.
Local Open Scope list_scope.
Local Opaque reverse64 level_of base find_bucket.

(** * What is claimed *)
(** the histories: Set with a string key, the reads, and every call of a kept item except Delete *)
Definition allowed (o : iop) : Prop := match o with ICall o => store_or_read o | IDelete _ => False | _ => True end.
Definition calls (os : list iop) : list op := flat_map (fun o => match o with ICall o => [o] | _ => [] end) os.
(** in state x, item number j is the one that the LoadItem call between [before] and [after] handed out for the key *)
Definition obtained (h : hashes) (max : Z) (before : list iop) (key : gkey) (after : list iop) (x : xstate) (j : nat) : Prop :=
  let x0 := irun h (new_items max) before in
  let os := before ++ ILoad key :: after in
  Forall allowed os /\ no_collision h (calls os) /\ existsb istops (iouts h (new_items max) os) = false /\
  (exists w, snd (istep h x0 (ILoad key)) = Ret (IOut (RItem (Some w)))) /\
  j = List.length (h_kept x0) /\ x = irun h x0 (ILoad key :: after).
(** Get answers the value (or does not come back, C34) *)
Definition reads (h : hashes) (x : xstate) (key : gkey) (v : gval) : Prop :=
  snd (istep h x (ICall (OpGet key))) = Ret (IOut (RVal v true)) \/ snd (istep h x (ICall (OpGet key))) = Div.
(** the item is the one in the map: it is not deleted, what Get answers is its value, what SetValue stores is what Get answers, and its
    Delete does to the map what Delete with the key does *)
Definition current (h : hashes) (x : xstate) (j : nat) (key : gkey) : Prop :=
  snd (istep h x (IIsDeleted j)) = Ret (IBool false) /\
  (h_map (fst (istep h x (IDelete j))) = h_map (fst (istep h x (ICall (OpDelete key)))) \/ snd (istep h x (ICall (OpDelete key))) = Div) /\
  exists v, snd (istep h x (IValue j)) = Ret (IVal v) /\ reads h x key v /\
    forall w, match istep h x (ISetValue j w) with
              | (x', Ret (IBool true)) => reads h x' key w /\ snd (istep h x' (IValue j)) = Ret (IVal w)
              | (x', _) => reads h x' key v /\ snd (istep h x' (IValue j)) = Ret (IVal v)
              end.
(** the item is not in the map any more: no call of the map answers otherwise for its SetValue or Delete, and no call of the map changes its
    value or its key or deletes it *)
Definition orphan (h : hashes) (x : xstate) (j : nat) : Prop :=
  (forall w os, eouts h (h_map (fst (istep h x (ISetValue j w)))) os = eouts h (h_map x) os) /\
  (forall os, eouts h (h_map (fst (istep h x (IDelete j)))) os = eouts h (h_map x) os) /\
  (forall o q, In q [IValue j; IKey j; IIsDeleted j] -> snd (istep h (fst (istep h x (ICall o))) q) = snd (istep h x q)).
Definition not_found (h : hashes) (x : xstate) (key : gkey) : Prop := snd (istep h x (ICall (OpGet key))) = Ret (IOut (RVal GNil false)).
(** the positions of the two keys lie in one bucket of the map *)
Definition same_bucket (h : hashes) (x : xstate) (key key' : gkey) : Prop :=
  exists p p', key_to_hash h key = Some p /\ key_to_hash h key' = Some p' /\ together (edump (h_map x)) (reverse64 (fst p)) (reverse64 (fst p')) = true.
(** the call is not a Set that stores a new key in the key's bucket *)
Definition quiet (h : hashes) (x : xstate) (key : gkey) (o : iop) : Prop :=
  match o with ICall (OpSet key' _) => not_found h x key' -> ~ same_bucket h x key key' | _ => True end.
Fixpoint quiet_run (h : hashes) (x : xstate) (key : gkey) (os : list iop) : Prop :=
  match os with [] => True | o :: os' => quiet h x key o /\ quiet_run h (fst (istep h x o)) key os' end.
(** the call is a Set that stores a new key in the key's bucket, before a key (this one or another) that is stored in the bucket *)
Definition shoves (h : hashes) (x : xstate) (key : gkey) (o : iop) : Prop :=
  exists key' v key2 w p' p2, o = ICall (OpSet key' v) /\ not_found h x key' /\ same_bucket h x key key' /\
    snd (istep h x (ICall (OpGet key2))) = Ret (IOut (RVal w true)) /\ same_bucket h x key key2 /\
    key_to_hash h key' = Some p' /\ key_to_hash h key2 = Some p2 /\ reverse64 (fst p') < reverse64 (fst p2).

(** * Proof *)
Definition Inv (h : hashes) (W : list op) (x : xstate) (ks : list (Z * Z)) : Prop :=
  exists m, erel (h_map x) m /\ (forall k c, sm_map m (k, c) <> None -> exists o, In o W /\ writes h o = Some (k, c)) /\
    Forall2 (okp (h_map x) (List.length (h_cells x))) ks (h_kept x).
Definition kept_by (h : hashes) (x : xstate) (o : iop) : list (Z * Z) :=
  let by_hash k c := match eload (h_map x) k c with Ret (Some _) => [(k, c)] | _ => [] end in
  match o with
  | ILoad key => match key_to_hash h key with Some (k, c) => by_hash k c | None => [] end
  | ILoadByHash k c => by_hash (u64 k) (u64 c)
  | _ => []
  end.
Definition quietp (h : hashes) (x : xstate) (kc : Z * Z) (o : iop) : Prop :=
  match o with
  | ICall (OpSet key' _) => forall k' c', key_to_hash h key' = Some (k', c') -> eload (h_map x) k' c' = Ret None ->
                              together (edump (h_map x)) (reverse64 (fst kc)) (reverse64 k') = false
  | _ => True
  end.
Definition shovep (h : hashes) (x : xstate) (kc : Z * Z) (o : iop) : Prop :=
  exists key' v k' c', o = ICall (OpSet key' v) /\ key_to_hash h key' = Some (k', c') /\ eload (h_map x) k' c' = Ret None /\
    together (edump (h_map x)) (reverse64 (fst kc)) (reverse64 k') = true /\ above (h_map x) (fst kc) k'.
Definition track (h : hashes) (x : xstate) (ks : list (Z * Z)) (o : iop) (x' : xstate) : Prop :=
  forall i kc q, nth_error ks i = Some kc -> nth_error (h_kept x) i = Some q -> exists q', nth_error (h_kept x') i = Some q' /\
    (is_att q -> quietp h x kc o -> is_att q') /\ (is_att q -> shovep h x kc o -> ~ is_att q') /\ (~ is_att q -> ~ is_att q').

Lemma okp_more s nc nc' kc q : (nc <= nc')%nat -> okp s nc kc q -> okp s nc' kc q.
Proof. intros L [A B]. split; auto. destruct q; auto. lia. Qed.
Lemma forall2_map_r {A B C} (R : A -> C -> Prop) (f : B -> C) l l' : Forall2 (fun a b => R a (f b)) l l' -> Forall2 R l (map f l').
Proof. induction 1; cbn [map]; constructor; auto. Qed.
Lemma forall2_impl {A B} (R R' : A -> B -> Prop) l l' : (forall a b, R a b -> R' a b) -> Forall2 R l l' -> Forall2 R' l l'.
Proof. intros P. induction 1; constructor; auto. Qed.
Lemma forall2_length {A B} (R : A -> B -> Prop) l l' : Forall2 R l l' -> List.length l = List.length l'.
Proof. induction 1; cbn [List.length]; congruence. Qed.
Lemma forall2_nth {A B} (R : A -> B -> Prop) l l' : Forall2 R l l' -> forall i a b, nth_error l i = Some a -> nth_error l' i = Some b -> R a b.
Proof.
  induction 1 as [|a b l l' H F IH]; intros [|i] a' b' E E'; cbn [nth_error] in *; try discriminate; eauto.
  assert (a = a' /\ b = b') as [-> ->] by (split; congruence). auto.
Qed.
Lemma track_same h x ks o x' more : h_kept x' = h_kept x ++ more -> (forall kc, ~ shovep h x kc o) -> track h x ks o x'.
Proof.
  intros E N i kc q _ Q. exists q. split; [rewrite E; rewrite nth_error_app1; auto; apply nth_error_Some; congruence|].
  split; auto. split; auto. intros _ S. exfalso. exact (N _ S).
Qed.
Lemma hit_slot e cells k c n j p : hit e k c n j p -> slot_of e cells (Att n j) = Some (slot_at p j).
Proof.
  intros (y & Hy & HP & K & Hj & _). cbn [slot_of]. rewrite HP. pose proof (po_n _ _ _ K). unfold slot_at.
  destruct (nth_error (p_slots p) j) as [z|] eqn:E; [f_equal; symmetry; apply nth_error_nth; auto|]. apply nth_error_None in E. lia.
Qed.
Lemma read_state h e o : read_only o -> fst (estep h e o) = e.
Proof.
  intros R. destruct o; cbn [read_only] in R; try contradiction; cbn [estep]; unfold ewith, eget, eget_item;
  repeat match goal with |- context [match ?z with _ => _ end] => destruct z end; reflexivity.
Qed.
Lemma moves_read h e d o : read_only o -> moves h e d o = ([], fun q => q).
Proof. intros R. destruct o; cbn [read_only] in R; try contradiction; reflexivity. Qed.

Lemma no_other h W m k c c' : no_collision h W -> (forall k c, sm_map m (k, c) <> None -> exists o, In o W /\ writes h o = Some (k, c)) ->
  (exists o, In o W /\ writes h o = Some (k, c)) -> c' <> c -> sm_map m (k, c') = None.
Proof.
  intros NC D (o & Ho & Hw) N. destruct (sm_map m (k, c')) as [b|] eqn:E; auto. exfalso.
  destruct (D k c') as (o' & Ho' & Hw'); [congruence|]. apply N. exact (NC o' o k c' c Ho' Ho Hw' Hw).
Qed.

Lemma istep_inv h W x ks o : no_collision h W -> Inv h W x ks -> allowed o -> (forall c, o = ICall c -> In c W) ->
  istops (snd (istep h x o)) = false ->
  Inv h W (fst (istep h x o)) (ks ++ kept_by h x o) /\ track h x ks o (fst (istep h x o)).
Proof.
  intros NC (m & H & DM & OK) AL IW ST.
  assert (LOAD : forall k c, 0 <= k < W64 -> eload (h_map x) k c <> Div ->
     Inv h W (mkH (h_map x) (h_cells x) (h_kept x ++ found (eload (h_map x) k c)))
       (ks ++ match eload (h_map x) k c with Ret (Some _) => [(k, c)] | _ => [] end)).
  { intros k c Hk NE. exists m. cbn [h_map h_cells h_kept]. split; auto. split; auto.
    destruct (eload_rel _ m k c H Hk) as [E|[(n & j & p & E & HT & _)|(E & _)]]; [congruence| |]; rewrite E; cbn [found].
    - apply Forall2_app; auto. constructor; auto. split; [exact Hk|]. cbn [fst snd]. eauto.
    - rewrite !app_nil_r. auto. }
  assert (SAME : Inv h W x (ks ++ [])) by (rewrite app_nil_r; exists m; auto).
  assert (NSH : (forall key v, o <> ICall (OpSet key v)) -> forall kc, ~ shovep h x kc o).
  { intros N kc (key' & v & k' & c' & E & _). exact (N _ _ E). }
  destruct o as [o|key|k c|j|j|j|j v|j]; cbn [allowed] in AL; try contradiction.
  - (* a call of the map *)
    assert (EV : Inv h W (fst (istep h x (ICall o))) ks /\ track h x ks (ICall o) (fst (istep h x (ICall o)))).
    { cbn [istep fst snd] in *.
      pose proof (estep_agrees h (h_map x) m o H AL) as A.
      destruct A as [[E1 E2]|[E1 E2]].
      { intros k c c' Hw N. eapply no_other; eauto. }
      { exfalso. rewrite E1 in ST. discriminate. }
      assert (DM' : forall k c, sm_map (fst (sm_step h m o)) (k, c) <> None -> exists o, In o W /\ writes h o = Some (k, c)).
      { intros k c N. destruct (sm_step_writes h m o k c N) as [N'|Hw]; eauto. }
      assert (RO : read_only o -> Inv h W (mkH (fst (estep h (h_map x) o)) (h_cells x ++ fst (moves h (h_map x) (List.length (h_cells x)) o))
                     (map (snd (moves h (h_map x) (List.length (h_cells x)) o)) (h_kept x))) ks /\
                   track h x ks (ICall o) (mkH (fst (estep h (h_map x) o)) (h_cells x ++ fst (moves h (h_map x) (List.length (h_cells x)) o))
                     (map (snd (moves h (h_map x) (List.length (h_cells x)) o)) (h_kept x)))).
      { intros R. rewrite (read_state h _ o R), (moves_read h _ _ o R). cbn [fst snd]. rewrite map_id, app_nil_r. split; [exists m; auto|].
        apply (track_same _ _ _ _ _ []); [cbn [h_kept]; rewrite app_nil_r; auto|]. apply NSH. intros key v Q. injection Q as ->. exact R. }
      destruct o as [key v|i|key|k c|key|k c|key|key|]; try contradiction; try (apply RO; exact Logic.I).
      destruct AL as (z & ->). cbn [estep] in *.
      destruct (key_to_hash h (KStr z)) as [[k c]|] eqn:EK; [|discriminate].
      destruct (key_range _ _ _ _ EK) as [Hk Hc].
      destruct (eload_rel _ m k c H Hk) as [E|[(n & j & p & E & HT & HI & EM)|(E & EM)]].
      + exfalso. unfold eset in ST. rewrite EK, E in ST. discriminate.
      + assert (M0 : moves h (h_map x) (List.length (h_cells x)) (OpSet (KStr z) v) = ([], fun q => q)) by (unfold moves; rewrite EK, E; reflexivity).
        rewrite M0. cbn [fst snd]. rewrite map_id, app_nil_r. split.
        * exists (fst (sm_step h m (OpSet (KStr z) v))). cbn [h_map h_cells h_kept]. split; auto. split; auto.
          unfold eset. rewrite EK, E. unfold eupdate. destruct (set_value KSample (sl_val (item_at (h_map x) n j)) v) as [[v' ok]|]; cbn [fst]; auto.
          destruct (er_inv _ _ H) as (xl & I). eapply forall2_impl; [|exact OK]. intros [k0 c0] q [A B]. split; auto. destruct q as [n0 j0|d]; auto.
          cbn [fst snd] in *. destruct B as (p0 & HT0). exact (hit_update _ xl k c n j p v' k0 c0 n0 j0 p0 I (er_nd _ _ H) HT HT0).
        * intros i kc q _ Q. exists q. split; auto. split; auto. split; auto. intros _ (key' & v' & k' & c' & Q1 & Q2 & Q3 & _). exfalso.
          injection Q1 as <- <-. rewrite EK in Q2. assert (k = k' /\ c = c') as [<- <-] by (split; congruence). congruence.
      + assert (NCO : forall c', sm_map m (k, c') = None).
        { intros c'. destruct (Z.eq_dec c' c) as [->|N]; auto. apply (no_other h W m k c c' NC DM); auto.
          exists (OpSet (KStr z) v). split; [apply IW; auto|]. cbn [writes]. exact EK. }
        assert (FR : forall z0, cont (h_map x) z0 -> pr_rev z0 <> reverse64 k).
        { intros [[[[r cf] dl] ky] vl] HZ Er. cbn [pr_rev fst] in Er. subst r.
          assert (D0 : dl = false).
          { destruct HZ as (y & b & p & Hy & HP & Hin). apply in_map_iff in Hin as (sl & Es & Hs).
            pose proof (er_nd _ _ H y b p Hy HP sl Hs) as D. unfold pr in Es. congruence. }
          subst dl. assert (EX : sm_map m (k, cf) = Some (mkBd KSample ky vl)) by (apply (er_at _ _ H); eauto).
          rewrite NCO in EX. discriminate. }
        pose proof (set_new_place h (h_map x) m z v k c (List.length (h_cells x)) H EK E FR) as SP. cbv zeta in SP.
        split.
        * exists (fst (sm_step h m (OpSet (KStr z) v))). cbn [h_map h_cells h_kept]. split; auto. split; auto. rewrite app_length.
          apply forall2_map_r. eapply forall2_impl; [|exact OK]. intros kc q OQ. apply (SP kc q OQ).
        * intros i kc q Q1 Q2. cbn [h_kept]. eexists. split; [apply map_nth_error; exact Q2|].
          destruct (SP kc q (forall2_nth _ _ _ OK _ _ _ Q1 Q2)) as (_ & S1 & S2 & S3). split; [|split; auto].
          -- intros A Q. apply S1; auto. apply (Q k c); auto.
          -- intros A (key' & v' & k' & c' & P1 & P2 & P3 & P4 & P5). injection P1 as <- <-. rewrite EK in P2.
             assert (k = k' /\ c = c') as [<- <-] by (split; congruence). apply S2; auto. }
    destruct EV as [EV TR]. split; auto. cbn [kept_by]. rewrite app_nil_r. exact EV.
  - (* LoadItem *)
    cbn [istep fst snd kept_by] in *. split; [|eapply track_same; [reflexivity|apply NSH; discriminate]].
    cbn [estep] in ST. unfold ewith in ST. destruct (key_to_hash h key) as [[k c]|] eqn:EK.
    + apply LOAD; [apply (proj1 (key_range _ _ _ _ EK))|]. intros E. unfold eget_item in ST. rewrite E in ST. discriminate.
    + rewrite !app_nil_r. exists m. auto.
  - cbn [istep fst snd kept_by] in *. split; [|eapply track_same; [reflexivity|apply NSH; discriminate]].
    cbn [estep] in ST. apply LOAD; [apply u64_range|]. intros E. unfold eget_item in ST. rewrite E in ST. discriminate.
  - assert (E : fst (istep h x (IValue j)) = x) by (cbn [istep]; destruct (nth_error (h_kept x) j); auto; destruct (slot_of _ _ _); auto).
    rewrite E. split; auto. apply (track_same _ _ _ _ _ []); [rewrite app_nil_r; auto|apply NSH; discriminate].
  - assert (E : fst (istep h x (IKey j)) = x) by (cbn [istep]; destruct (nth_error (h_kept x) j); auto; destruct (slot_of _ _ _); auto).
    rewrite E. split; auto. apply (track_same _ _ _ _ _ []); [rewrite app_nil_r; auto|apply NSH; discriminate].
  - assert (E : fst (istep h x (IIsDeleted j)) = x) by (cbn [istep]; destruct (nth_error (h_kept x) j); auto; destruct (slot_of _ _ _); auto).
    rewrite E. split; auto. apply (track_same _ _ _ _ _ []); [rewrite app_nil_r; auto|apply NSH; discriminate].
  - assert (TS : h_kept (fst (istep h x (ISetValue j v))) = h_kept x).
    { cbn [istep]. destruct (nth_error (h_kept x) j) as [q|]; auto. destruct (slot_of _ _ q); auto. destruct (set_value _ _ _) as [[v' ok]|]; auto. destruct q; auto. }
    split; [|apply (track_same _ _ _ _ _ []); [rewrite app_nil_r; auto|apply NSH; discriminate]].
    cbn [kept_by]. rewrite app_nil_r in *. cbn [istep]. destruct (nth_error (h_kept x) j) as [q|] eqn:Q; auto.
    destruct (slot_of (h_map x) (h_cells x) q) as [sl|] eqn:SL; auto. destruct (set_value _ _ _) as [[v' ok]|]; auto. cbn [fst].
    destruct q as [n i|d].
    + assert (EX : exists kc, nth_error ks j = Some kc).
      { destruct (nth_error ks j) eqn:EN; eauto. exfalso. apply nth_error_None in EN. rewrite (forall2_length _ _ _ OK) in EN. apply nth_error_None in EN. congruence. }
      destruct EX as ([k c] & EN). destruct (forall2_nth _ _ _ OK _ _ _ EN Q) as [Hk (p & HT)]. cbn [fst snd] in *.
      pose proof (hit_map _ _ _ _ _ _ _ H Hk HT) as EM. destruct (er_inv _ _ H) as (xl & I).
      eexists. cbn [set_cell h_map h_cells h_kept]. split; [|split].
      * apply (upd_rel (h_map x) m k c n i p v' H Hk HT). intros c' N. apply (no_other h W m k c c' NC DM); auto. apply DM. congruence.
      * intros k1 c1. cbn [sm_map]. rewrite sm_put_eq. destruct (pair_eqb_spec (k, c) (k1, c1)) as [P|P]; auto. intros _. apply DM. rewrite <- P. congruence.
      * eapply forall2_impl; [|exact OK]. intros [k0 c0] q [A B]. split; auto. destruct q as [n0 j0|d]; auto.
        cbn [fst snd] in *. destruct B as (p0 & HT0). exact (hit_update _ xl k c n i p v' k0 c0 n0 j0 p0 I (er_nd _ _ H) HT HT0).
    + exists m. cbn [set_cell h_map h_cells h_kept]. rewrite upd_nth_length. auto.
Qed.

(** * Runs *)
Lemma irun_app h : forall a x b, existsb istops (iouts h x a) = false -> irun h x (a ++ b) = irun h (irun h x a) b.
Proof.
  induction a as [|o a IH]; intros x b N; cbn [app irun]; auto. cbn [iouts existsb] in N. apply orb_false_iff in N as [N1 N2].
  rewrite N1 in *. apply IH. exact N2.
Qed.
Lemma iouts_app h : forall a x b, existsb istops (iouts h x (a ++ b)) = false ->
  existsb istops (iouts h x a) = false /\ existsb istops (iouts h (irun h x a) b) = false.
Proof.
  induction a as [|o a IH]; intros x b N; cbn [app irun]; auto. cbn [app iouts existsb] in *. apply orb_false_iff in N as [N1 N2].
  rewrite N1 in *. cbn [orb]. apply IH. exact N2.
Qed.
Fixpoint quietp_run (h : hashes) (x : xstate) (kc : Z * Z) (os : list iop) : Prop :=
  match os with [] => True | o :: os' => quietp h x kc o /\ quietp_run h (fst (istep h x o)) kc os' end.
Lemma run_inv h W : no_collision h W -> forall os x ks, Inv h W x ks -> Forall allowed os -> (forall c, In c (calls os) -> In c W) ->
  existsb istops (iouts h x os) = false ->
  exists ks', Inv h W (irun h x os) (ks ++ ks') /\
    forall i kc q, nth_error ks i = Some kc -> nth_error (h_kept x) i = Some q -> exists q', nth_error (h_kept (irun h x os)) i = Some q' /\
      (is_att q -> quietp_run h x kc os -> is_att q') /\ (~ is_att q -> ~ is_att q').
Proof.
  intros NC. induction os as [|o os IH]; intros x ks I AL IW N.
  - exists []. rewrite app_nil_r. cbn [irun]. split; auto. intros i kc q _ Q. exists q. auto.
  - cbn [iouts existsb irun] in *. apply orb_false_iff in N as [N1 N2]. rewrite N1 in *. apply Forall_cons_iff in AL as [AO AL].
    destruct (istep_inv h W x ks o NC I AO) as [I1 T1]; auto.
    { intros c ->. apply IW. cbn [calls flat_map]. left. auto. }
    destruct (IH _ _ I1 AL) as (ks' & I2 & T2); auto.
    { intros c Hc. apply IW. cbn [calls flat_map]. apply in_or_app. auto. }
    exists (kept_by h x o ++ ks'). rewrite app_assoc. split; auto. intros i kc q Q1 Q2.
    destruct (T1 i kc q Q1 Q2) as (q1 & R1 & R2 & R3 & R4).
    assert (Q1' : nth_error (ks ++ kept_by h x o) i = Some kc) by (rewrite nth_error_app1; auto; apply nth_error_Some; congruence).
    destruct (T2 i kc q1 Q1' R1) as (q2 & S1 & S2 & S3). exists q2. split; auto. split; auto.
    intros A [B1 B2]. auto.
Qed.
Lemma new_inv h W max : 16 <= max -> Inv h W (new_items max) [].
Proof.
  intros HM. exists (sm_empty KSample). split; [apply new_emb_rel; auto|]. split; [intros k c N; exfalso; apply N; reflexivity|constructor].
Qed.
Lemma item_inv h max before key after x j : 16 <= max -> obtained h max before key after x j ->
  exists kc ks x0 q0, let W := calls (before ++ ILoad key :: after) in
    key_to_hash h key = Some kc /\ Inv h W x0 ks /\ nth_error ks j = Some kc /\ nth_error (h_kept x0) j = Some q0 /\ is_att q0 /\
    no_collision h W /\ Forall allowed after /\ (forall c, In c (calls after) -> In c W) /\
    existsb istops (iouts h x0 after) = false /\ x0 = fst (istep h (irun h (new_items max) before) (ILoad key)) /\ x = irun h x0 after.
Proof.
  intros HM (AL & NC & NS & (w & HW) & -> & ->). set (W := calls (before ++ ILoad key :: after)) in *.
  apply Forall_app in AL as [AL1 AL2]. apply Forall_cons_iff in AL2 as [_ AL2]. apply iouts_app in NS as [NS1 NS2].
  set (y := irun h (new_items max) before) in *.
  destruct (run_inv h W NC before (new_items max) [] (new_inv h W max HM) AL1) as (ks & I0 & _); auto.
  { intros c Hc. unfold W, calls. rewrite flat_map_app. apply in_or_app. auto. }
  fold y in I0. cbn [app] in I0. cbn [iouts existsb irun] in NS2 |- *. apply orb_false_iff in NS2 as [N1 N2]. rewrite N1 in *.
  destruct (istep_inv h W y ks (ILoad key) NC I0 Logic.I ltac:(discriminate) N1) as [I1 _].
  assert (LK : List.length ks = List.length (h_kept y)) by (destruct I0 as (m & _ & _ & F); exact (forall2_length _ _ _ F)).
  cbn [istep snd estep] in HW. unfold ewith in HW. destruct (key_to_hash h key) as [[k c]|] eqn:EK; [|discriminate].
  unfold eget_item in HW. destruct (eload (h_map y) k c) as [[[n i]|]| | |] eqn:EL; try discriminate.
  assert (KB : kept_by h y (ILoad key) = [(k, c)]) by (cbn [kept_by]; rewrite EK, EL; reflexivity). rewrite KB in I1.
  exists (k, c), (ks ++ [(k, c)]), (fst (istep h y (ILoad key))), (Att n i). cbv zeta. split; auto. split; [exact I1|].
  split; [rewrite nth_error_app2 by lia; rewrite <- LK, Nat.sub_diag; reflexivity|].
  split. { cbn [istep fst h_kept]. rewrite EK, EL. cbn [found]. rewrite nth_error_app2, Nat.sub_diag by lia. reflexivity. }
  split; [exact Logic.I|]. split; auto. split; auto. split; auto.
  intros c0 Hc. unfold W, calls. rewrite flat_map_app. apply in_or_app. right. exact Hc.
Qed.

(** an item in the map *)
Lemma att_current h W x ks j kc n i key : Inv h W x ks -> no_collision h W -> nth_error ks j = Some kc -> nth_error (h_kept x) j = Some (Att n i) ->
  key_to_hash h key = Some kc -> current h x j key.
Proof.
  intros (m & H & DM & OK) NC EN Q EK. destruct kc as [k c].
  destruct (forall2_nth _ _ _ OK _ _ _ EN Q) as [Hk (p & HT)]. cbn [fst snd] in *.
  pose proof (hit_slot _ (h_cells x) _ _ _ _ _ HT) as SL. pose proof (hit_map _ _ _ _ _ _ _ H Hk HT) as EM. destruct (er_inv _ _ H) as (xl & I).
  assert (RD : forall x' m' p', erel (h_map x') m' -> hit (h_map x') k c n i p' -> reads h x' key (sl_val (slot_at p' i))).
  { intros x' m' p' H' HT'. unfold reads. cbn [istep fst snd estep]. unfold ewith. rewrite EK. unfold eget.
    destruct (hit_load _ _ _ _ _ _ _ H' HT') as [->| ->]; cbn [snd lift]; auto. left.
    destruct (hit_at _ _ _ _ _ _ HT') as [_ ->]. reflexivity. }
  assert (VL : forall x' p', nth_error (h_kept x') j = Some (Att n i) -> hit (h_map x') k c n i p' ->
     snd (istep h x' (IValue j)) = Ret (IVal (sl_val (slot_at p' i)))).
  { intros x' p' Q' HT'. cbn [istep]. rewrite Q', (hit_slot _ (h_cells x') _ _ _ _ _ HT'). reflexivity. }
  split; [cbn [istep]; rewrite Q, SL, (hit_nodel _ _ _ _ _ _ (er_nd _ _ H) HT); reflexivity|].
  split.
  { cbn [istep]. rewrite Q, SL. cbn [fst snd set_cell h_map estep]. unfold ewith. rewrite EK. unfold edelete.
    destruct (hit_load _ _ _ _ _ _ _ H HT) as [->| ->]; cbn [fst snd lift]; auto. }
  exists (sl_val (slot_at p i)). split; [eapply VL; eauto|]. split; [eapply RD; eauto|]. intros w.
  cbn [istep]. rewrite Q, SL. destruct (set_value KSample (sl_val (slot_at p i)) w) as [[v' ok]|] eqn:SV.
  2:{ split; [eapply RD; eauto|eapply VL; eauto]. }
  set (x' := set_cell x (Att n i) (set_sval v')).
  assert (H' : erel (h_map x') (mkSM (sm_put m (k, c) (Some (mkBd KSample (sl_key (slot_at p i)) v'))) KSample (sm_created m))).
  { apply upd_rel; auto. intros c' N. apply (no_other h W m k c c' NC DM); auto. apply DM. congruence. }
  destruct (hit_update _ xl k c n i p v' k c n i p I (er_nd _ _ H) HT HT) as (p' & HT').
  change (upd_item (h_map x) n i (set_sval v')) with (h_map x') in HT'.
  assert (VV : sl_val (slot_at p' i) = v').
  { destruct (upd_item_spec (h_map x) xl k c n i p (set_sval v') I HT ltac:(reflexivity)) as (_ & _ & _ & _ & _ & P1 & _).
    destruct HT as (y & Hy & HP & K & Hj & _). destruct (upd_slot_ok p _ _ i (set_sval v') K Hj eq_refl) as (_ & _ & _ & S').
    destruct HT' as (y' & Hy' & HP' & _). change (upd_item (h_map x) n i (set_sval v')) with (h_map x') in P1.
    assert (p' = upd_slot p i (set_sval v')) by congruence. subst p'. rewrite S', Nat.eqb_refl by auto. reflexivity. }
  pose proof (RD x' _ p' H' HT') as R1. pose proof (VL x' p' Q HT') as R2. rewrite VV in R1, R2.
  assert (OKV : if ok then v' = w else v' = sl_val (slot_at p i)).
  { clear -SV. unfold set_value in SV. destruct w; cbn in SV; repeat match type of SV with context [match ?z with _ => _ end] => destruct z end;
    try discriminate; assert (v' = v' /\ ok = ok) by auto; injection SV as <- <-; reflexivity. }
  destruct ok; rewrite <- OKV; auto.
Qed.
Lemma moves_det h e d o c : snd (moves h e d o) (Det c) = Det c.
Proof.
  destruct o as [key v|i|key|k c0|key|k c0|key|key|]; cbn [moves snd]; auto.
  - destruct (key_to_hash h key) as [[k c0]|]; auto. destruct (eload e k c0) as [[a|]| | |]; auto. cbv zeta.
    destruct (pool_of _ _) as [p|]; auto. destruct (get_with_fn 4 p _) as [p1 i| |]; auto.
    assert (X : forall A (f : bool) (a b : A), a = b -> (if f then a else b) = b) by (intros A [] a b ->; auto).
    destruct key; destruct (set_value KSample (sl_val (slot_at p1 i)) v) as [[v' ok]|]; cbn [snd];
      rewrite ?(X place _ (detach _ _ (Det c)) (Det c)) by reflexivity; auto; rewrite split_place_det; apply X; reflexivity.
  - destruct (item_hash h i) as [[k c0]|]; auto. destruct (eload e k c0) as [[a|]| | |]; auto. cbn [snd]. rewrite split_place_det. destruct (_ && _ && _ && _); auto.
Qed.
(** out of use, for ever *)
Definition out_of_use (x : xstate) (j : nat) : Prop := exists c, nth_error (h_kept x) j = Some (Det c) /\ (c < List.length (h_cells x))%nat.
Lemma det_orphan h x j : out_of_use x j -> orphan h x j.
Proof.
  intros (c & Q & L). split; [|split].
  - intros w os. cbn [istep]. rewrite Q. destruct (slot_of _ _ _) as [sl|]; auto. destruct (set_value _ _ _) as [[v' ok]|]; auto.
  - intros os. cbn [istep]. rewrite Q. destruct (slot_of _ _ _) as [sl|]; auto.
  - intros o q Hq.
    assert (Q' : nth_error (h_kept (fst (istep h x (ICall o)))) j = Some (Det c)) by (cbn [istep fst h_kept]; rewrite (map_nth_error _ _ _ Q), moves_det; reflexivity).
    assert (S' : slot_of (h_map (fst (istep h x (ICall o)))) (h_cells (fst (istep h x (ICall o)))) (Det c) = slot_of (h_map x) (h_cells x) (Det c)).
    { cbn [istep fst h_cells slot_of]. apply nth_error_app1. exact L. }
    revert Q' S'. generalize (fst (istep h x (ICall o))). intros x' Q' S'.
    destruct Hq as [<-|[<-|[<-|[]]]]; cbn [istep]; rewrite Q, Q', S'; destruct (slot_of (h_map x) (h_cells x) (Det c)); reflexivity.
Qed.
Lemma det_step h x o j : out_of_use x j -> out_of_use (fst (istep h x o)) j.
Proof.
  intros (c & Q & L). exists c.
  assert (A : forall l, nth_error (h_kept x ++ l) j = Some (Det c)) by (intros l; rewrite nth_error_app1; auto; apply nth_error_Some; congruence).
  assert (B : forall q f, h_kept (set_cell x q f) = h_kept x /\ List.length (h_cells (set_cell x q f)) = List.length (h_cells x)).
  { intros [n i|d] f; cbn [set_cell h_kept h_cells]; auto. rewrite upd_nth_length. auto. }
  destruct o as [o|key|k c0|i|i|i|i v|i]; cbn [istep fst].
  - cbn [h_kept h_cells]. rewrite (map_nth_error _ _ _ Q), moves_det, app_length. split; auto. lia.
  - cbn [h_kept h_cells]. auto.
  - cbn [h_kept h_cells]. auto.
  - destruct (nth_error (h_kept x) i); auto. destruct (slot_of _ _ _); auto.
  - destruct (nth_error (h_kept x) i); auto. destruct (slot_of _ _ _); auto.
  - destruct (nth_error (h_kept x) i); auto. destruct (slot_of _ _ _); auto.
  - destruct (nth_error (h_kept x) i) as [q|]; auto. destruct (slot_of _ _ _) as [sl|]; auto. destruct (set_value _ _ _) as [[v' ok]|]; auto.
    cbn [fst]. destruct (B q (set_sval v')) as [-> ->]. auto.
  - destruct (nth_error (h_kept x) i) as [q|]; auto. destruct (slot_of _ _ _) as [sl|]; auto. cbn [fst]. destruct (B q set_sdel) as [-> ->]. auto.
Qed.
Lemma det_run h j : forall os x, out_of_use x j -> out_of_use (irun h x os) j.
Proof. induction os as [|o os IH]; intros x D; cbn [irun]; auto. destruct (istops _); auto using det_step. Qed.
Lemma inv_det h W x ks j kc c : Inv h W x ks -> nth_error ks j = Some kc -> nth_error (h_kept x) j = Some (Det c) -> out_of_use x j.
Proof. intros (m & _ & _ & OK) EN Q. destruct (forall2_nth _ _ _ OK _ _ _ EN Q) as [_ L]. exists c. auto. Qed.

(** * C79 *)
(** At every moment, a kept item either is the item in the map or has nothing to do with the map. *)
Theorem C79_current_or_orphan : forall h max before key after x j, 16 <= max ->
  obtained h max before key after x j -> current h x j key \/ orphan h x j.
Proof.
  intros h max before key after x j HM O. destruct (item_inv _ _ _ _ _ _ _ HM O) as (kc & ks & x0 & q0 & EK & I0 & N0 & Q0 & A0 & NC & AL & IW & NS & E0 & ->).
  destruct (run_inv h _ NC after x0 ks I0 AL IW NS) as (ks' & I1 & T). destruct (T j kc q0 N0 Q0) as (q' & Q' & _).
  assert (N1 : nth_error (ks ++ ks') j = Some kc) by (rewrite nth_error_app1; auto; apply nth_error_Some; congruence).
  destruct q' as [n i|c]; [left; eapply att_current; eauto|right; apply det_orphan; eapply inv_det; eauto].
Qed.
Print Assumptions C79_current_or_orphan.

(** It stays the item in the map as long as no new key is stored in the bucket of its key. *)
Lemma not_found_load h x key k c : key_to_hash h key = Some (k, c) -> eload (h_map x) k c = Ret None -> not_found h x key.
Proof. intros EK E. unfold not_found. cbn [istep fst snd estep]. unfold ewith. rewrite EK. unfold eget. rewrite E. reflexivity. Qed.
Lemma quiet_p h key kc : key_to_hash h key = Some kc -> forall os x, quiet_run h x key os -> quietp_run h x kc os.
Proof.
  intros EK. induction os as [|o os IH]; intros x; cbn [quiet_run quietp_run]; auto. intros [Q R]. split; auto.
  unfold quietp, quiet in *. destruct o as [[key' v| | | | | | | |]| | | | | | |]; auto. intros k' c' EK' EL.
  destruct (together (edump (h_map x)) (reverse64 (fst kc)) (reverse64 k')) eqn:T; auto. exfalso.
  apply (Q (not_found_load _ _ _ _ _ EK' EL)). exists kc, (k', c'). auto.
Qed.
Theorem C79_stays_current : forall h max before key after x j, 16 <= max ->
  obtained h max before key after x j ->
  quiet_run h (irun h (new_items max) (before ++ [ILoad key])) key after -> current h x j key.
Proof.
  intros h max before key after x j HM O QR. pose proof O as (_ & _ & NS & _). apply iouts_app in NS as [NS1 NS2].
  destruct (item_inv _ _ _ _ _ _ _ HM O) as (kc & ks & x0 & q0 & EK & I0 & N0 & Q0 & A0 & NC & AL & IW & NS & E0 & ->).
  rewrite irun_app in QR by auto. cbn [irun] in QR. rewrite E0 in *.
  assert (QR' : quiet_run h (fst (istep h (irun h (new_items max) before) (ILoad key))) key after) by (destruct (istops _); exact QR).
  destruct (run_inv h _ NC after _ ks I0 AL IW NS) as (ks' & I1 & T). destruct (T j kc q0 N0 Q0) as (q' & Q' & T1 & _).
  specialize (T1 A0 (quiet_p h key kc EK after _ QR')). destruct q' as [n i|c]; [|contradiction].
  eapply att_current; eauto. rewrite nth_error_app1; auto. apply nth_error_Some. congruence.
Qed.
Print Assumptions C79_stays_current.

(** It leaves the map for ever when a new key is stored in the bucket of its key, before it or before another
    key of the bucket: whatever calls follow, Delete, Purge, StoreItem and Delete of kept items included. *)
Theorem C79_shoved_out : forall h max before key a o b x j, 16 <= max ->
  obtained h max before key (a ++ [o]) x j ->
  shoves h (irun h (new_items max) (before ++ ILoad key :: a)) key o -> orphan h (irun h x b) j.
Proof.
  intros h max before key a o b x j HM O SH. pose proof O as (_ & _ & NS & _). apply iouts_app in NS as [NS1 NS2].
  destruct (item_inv _ _ _ _ _ _ _ HM O) as (kc & ks & x0 & q0 & EK & I0 & N0 & Q0 & A0 & NC & AL & IW & NS & E0 & ->).
  rewrite irun_app in SH by auto. cbn [irun] in SH. cbn [iouts existsb] in NS2. apply orb_false_iff in NS2 as [N1 _]. rewrite N1 in SH.
  rewrite <- E0 in SH. apply Forall_app in AL as [AL1 AL2]. apply Forall_cons_iff in AL2 as [AO _].
  apply iouts_app in NS as [NSa NSb]. rewrite irun_app by auto. cbn [iouts existsb irun] in NSb |- *. apply orb_false_iff in NSb as [NSo _]. rewrite NSo in *.
  assert (CA : forall c, In c (calls a) -> In c (calls (before ++ ILoad key :: a ++ [o]))).
  { intros c Hc. apply IW. unfold calls. rewrite flat_map_app. apply in_or_app. auto. }
  destruct (run_inv h _ NC a x0 ks I0 AL1 CA NSa) as (ks1 & I1 & T1). destruct (T1 j kc q0 N0 Q0) as (q1 & Q1 & _).
  assert (N1' : nth_error (ks ++ ks1) j = Some kc) by (rewrite nth_error_app1; auto; apply nth_error_Some; congruence).
  set (y := irun h x0 a) in *.
  destruct (istep_inv h _ y (ks ++ ks1) o NC I1 AO) as [I2 T2]; auto.
  { intros c ->. apply IW. unfold calls. rewrite flat_map_app. apply in_or_app. right. left. auto. }
  destruct (T2 j kc q1 N1' Q1) as (q2 & Q2 & _ & S2 & S3).
  assert (NA : ~ is_att q2).
  { destruct q1 as [n i|c]; [|apply S3; cbn; auto]. apply S2; [exact Logic.I|].
    destruct SH as (key' & v & key2 & w & p' & p2 & -> & NF & (p3 & p4 & E2 & E3 & TG) & G2 & (p5 & p6 & F2 & F3 & TG2) & E4 & E5 & LT).
    assert (p3 = kc /\ p5 = kc /\ p4 = p' /\ p6 = p2) as (-> & -> & -> & ->) by (repeat split; congruence). destruct p' as [k' c'].
    exists key', v, k', c'. split; auto. split; auto. split; [|split; [exact TG|]].
    2:{ destruct p2 as [k2 c2]. cbn [fst snd] in *. destruct I1 as (m & H & _). cbn [istep fst snd estep] in G2. unfold ewith in G2. rewrite E5 in G2.
      unfold eget in G2. destruct (eload_rel _ m k2 c2 H (proj1 (key_range _ _ _ _ E5))) as [E|[(n2 & i2 & q & E & HT & _)|(E & _)]];
      rewrite E in G2; try discriminate. exists k2, c2, n2, i2, q. split; [exact HT|]. split; [exact TG2|exact LT]. }
    unfold not_found in NF. cbn [istep fst snd estep] in NF. unfold ewith in NF. rewrite E4 in NF. unfold eget in NF.
    destruct (eload (h_map y) k' c') as [[[n0 i0]|]| | |]; cbn [snd lift] in NF; try discriminate. reflexivity. }
  assert (N2' : nth_error ((ks ++ ks1) ++ kept_by h y o) j = Some kc) by (rewrite nth_error_app1; auto; apply nth_error_Some; congruence).
  destruct q2 as [n i|c]; [exfalso; apply NA; exact Logic.I|]. apply det_orphan, det_run. eapply inv_det; eauto.
Qed.
Print Assumptions C79_shoved_out.

(** No call of the map changes an item it has handed out, except that Set of the item's key may change its value. *)
Lemma split_place_att : forall f s b n i, exists n' i', split_place f s b (Att n i) = Att n' i'.
Proof.
  induction f as [|f IH]; intros s b n i; cbn [split_place]; eauto. destruct (split_round s b) as [[[[s2 nb] k] ln]|]; eauto.
  assert (X : exists n' i', moved b nb k (Att n i) = Att n' i') by (cbn [moved]; destruct (_ && _); eauto). destruct X as (n' & i' & ->).
  destruct (_ <? _); auto. destruct (_ <? _); eauto.
Qed.
Lemma moves_out h s m d z v n i c : erel s m -> snd (moves h s d (OpSet (KStr z) v)) (Att n i) = Det c ->
  exists p, b_pool (bget (x_trie s) n) = Some p /\ fst (moves h s d (OpSet (KStr z) v)) = p_slots p /\ c = (d + i)%nat.
Proof.
  intros H. destruct (er_inv _ _ H) as (xl & I). unfold moves. destruct (key_to_hash h (KStr z)) as [[k cf]|]; [|discriminate].
  destruct (eload_spec s xl k cf I) as [->|[(n0 & j0 & p0 & -> & _)|(-> & y & b & p & Hy & Eb & _ & HP & _)]]; try discriminate.
  cbv zeta. unfold pool_of.
  assert (BB : base (x_trie s) (base (x_trie s) (find_bucket (x_trie s) (reverse64 k))) = b).
  { rewrite <- Eb. apply (base_linked _ xl); [apply (ei_trie _ _ I)|]. apply (ei_adj_x s xl I _ _ Hy). }
  rewrite BB, HP, <- Eb. destruct (get_with_fn 4 p (reverse64 k)) as [p1 i1| |]; try discriminate.
  assert (D : (if new_array 4 p (reverse64 k) then detach b d (Att n i) else Att n i) = Det c -> new_array 4 p (reverse64 k) = true /\ n = b /\ c = (d + i)%nat).
  { destruct (new_array _ _ _); [|discriminate]. cbn [detach]. destruct (nid_eqb n b) eqn:E; [|discriminate]. apply nid_eqb_eq in E.
    intros Q. split; auto. split; auto. congruence. }
  assert (A : forall (t : bool) s2 q, (if t then split_place 64 s2 b q else q) = Det c -> q = Det c).
  { intros [] s2 [n1 i1'|c1] Q; auto; [destruct (split_place_att 64 s2 b n1 i1') as (n2 & i2 & E); congruence|rewrite split_place_det in Q; auto]. }
  destruct (set_value KSample (sl_val (slot_at p1 i1)) v) as [[v' ok]|]; cbn [fst snd]; intros Q; try apply A in Q;
    apply D in Q as (-> & -> & ->); exists p; auto.
Qed.
Theorem C79_calls_keep : forall h max before key a o x j, 16 <= max ->
  obtained h max before key (a ++ [ICall o]) x j ->
  let y := irun h (new_items max) (before ++ ILoad key :: a) in
  snd (istep h x (IKey j)) = snd (istep h y (IKey j)) /\
  snd (istep h x (IIsDeleted j)) = snd (istep h y (IIsDeleted j)) /\
  ((forall key' v, o = OpSet key' v -> key_to_hash h key' <> key_to_hash h key) -> snd (istep h x (IValue j)) = snd (istep h y (IValue j))).
Proof.
  intros h max before key a o x j HM O. pose proof O as (_ & _ & NS & _). apply iouts_app in NS as [NS1 NS2].
  destruct (item_inv _ _ _ _ _ _ _ HM O) as (kc & ks & x0 & q0 & EK & I0 & N0 & Q0 & A0 & NC & AL & IW & NS & E0 & ->). cbv zeta.
  cbn [iouts existsb] in NS2. apply orb_false_iff in NS2 as [N1 _].
  assert (Y : irun h (new_items max) (before ++ ILoad key :: a) = irun h x0 a) by (rewrite irun_app by auto; cbn [irun]; rewrite N1, <- E0; reflexivity).
  rewrite Y. clear Y. apply Forall_app in AL as [AL1 AL2]. apply Forall_cons_iff in AL2 as [AO _].
  apply iouts_app in NS as [NSa NSb]. rewrite irun_app by auto. cbn [iouts existsb irun] in NSb |- *. apply orb_false_iff in NSb as [NSo _]. rewrite NSo in *.
  set (W := calls (before ++ ILoad key :: a ++ [ICall o])) in *.
  assert (CA : forall c, In c (calls a) -> In c W).
  { intros c Hc. apply IW. unfold calls. rewrite flat_map_app. apply in_or_app. auto. }
  destruct (run_inv h _ NC a x0 ks I0 AL1 CA NSa) as (ks1 & I1 & T1). destruct (T1 j kc q0 N0 Q0) as (q1 & Q1 & _).
  assert (N1' : nth_error (ks ++ ks1) j = Some kc) by (rewrite nth_error_app1; auto; apply nth_error_Some; congruence).
  set (y := irun h x0 a) in *. clearbody y. clear T1.
  assert (IO : In o W) by (apply IW; unfold calls; rewrite flat_map_app; apply in_or_app; right; left; auto).
  destruct (istep_inv h _ y (ks ++ ks1) (ICall o) NC I1 AO) as [I2 T2]; auto.
  { intros c Q. injection Q as <-. exact IO. }
  destruct (T2 j kc q1 N1' Q1) as (q2 & Q2 & _).
  assert (N2' : nth_error ((ks ++ ks1) ++ kept_by h y (ICall o)) j = Some kc) by (rewrite nth_error_app1; auto; apply nth_error_Some; congruence).
  destruct q1 as [n i|c].
  2:{ destruct (det_orphan h y j (inv_det _ _ _ _ _ _ _ I1 N1' Q1)) as (_ & _ & D). split; [|split; [|intros _]]; apply D; cbn [In]; auto. }
  destruct I1 as (m & H & DM & OK). destruct (forall2_nth _ _ _ OK _ _ _ N1' Q1) as [Hk (p & HT)]. destruct kc as [k c]. cbn [fst snd] in *.
  pose proof (hit_slot _ (h_cells y) _ _ _ _ _ HT) as SL. pose proof (hit_map _ _ _ _ _ _ _ H Hk HT) as EM.
  assert (NDy : sl_del (slot_at p i) = false) by (apply (hit_nodel _ _ _ _ _ _ (er_nd _ _ H) HT)).
  assert (RR : forall sl', slot_of (h_map (fst (istep h y (ICall o)))) (h_cells (fst (istep h y (ICall o)))) q2 = Some sl' ->
     sl_key sl' = sl_key (slot_at p i) -> sl_del sl' = false ->
     ((forall key' v, o = OpSet key' v -> key_to_hash h key' <> key_to_hash h key) -> sl_val sl' = sl_val (slot_at p i)) ->
     snd (istep h (fst (istep h y (ICall o))) (IKey j)) = snd (istep h y (IKey j)) /\
     snd (istep h (fst (istep h y (ICall o))) (IIsDeleted j)) = snd (istep h y (IIsDeleted j)) /\
     ((forall key' v, o = OpSet key' v -> key_to_hash h key' <> key_to_hash h key) ->
        snd (istep h (fst (istep h y (ICall o))) (IValue j)) = snd (istep h y (IValue j)))).
  { revert Q2. generalize (fst (istep h y (ICall o))). intros x' Q2 sl' S1 S2 S3 S4. cbn [istep]. rewrite Q1, Q2, SL, S1. cbn [snd].
    rewrite S2, S3, NDy. split; auto. split; auto. intros N. rewrite S4 by exact N. auto. }
  destruct q2 as [n2 i2|c2].
  - destruct I2 as (m2 & H2 & _ & OK2). destruct (forall2_nth _ _ _ OK2 _ _ _ N2' Q2) as [_ (p2 & HT2)]. cbn [fst snd] in HT2.
    apply (RR (slot_at p2 i2)); [apply (hit_slot _ _ _ _ _ _ _ HT2)| |apply (hit_nodel _ _ _ _ _ _ (er_nd _ _ H2) HT2)|].
    all: pose proof (hit_map _ _ _ _ _ _ _ H2 Hk HT2) as E2.
    all: assert (EE : sm_map (fst (sm_step h m o)) (k, c) = Some (mkBd KSample (sl_key (slot_at p2 i2)) (sl_val (slot_at p2 i2)))).
    1,3: (destruct (estep_agrees h (h_map y) m o H AO) as [[D1 D2]|[D1 D2]];
      [intros k' c' c0 Hw N; eapply no_other; eauto|cbn [istep snd] in NSo; rewrite D1 in NSo; discriminate|
       apply (hit_map _ _ _ _ _ _ _ D2 Hk HT2)]).
    all: clear RR T2 OK2 HT2 E2 H2 Q2; destruct o as [key' v| |key'|? ?|key'|? ?| | |]; try contradiction; cbn [sm_step fst] in EE; try (intros; congruence).
    all: destruct AO as (z & ->); destruct (key_to_hash h (KStr z)) as [p'|] eqn:EZ; cbn [fst] in EE; try (intros; congruence).
    all: destruct (pair_eqb_spec p' (k, c)) as [->|NP]; [rewrite EM in EE|].
    + unfold sm_update in EE. cbn [bd_kind bd_val] in EE. match type of EE with context [assign ?ka ?kb ?kd] => destruct (assign ka kb kd) as [[v' ok]|] end; cbn [fst sm_map bd_key] in EE; [|congruence].
      rewrite sm_put_eq in EE. destruct (pair_eqb_spec (k, c) (k, c)) as [_|N]; [|congruence]. congruence.
    + destruct (sm_map m p') as [b|]; cbn [fst sm_map] in EE.
      * unfold sm_update in EE. match type of EE with context [assign ?ka ?kb ?kd] => destruct (assign ka kb kd) as [[v' ok]|] end; cbn [fst sm_map] in EE; [|congruence].
        rewrite sm_put_eq in EE. destruct (pair_eqb_spec p' (k, c)); congruence.
      * rewrite sm_put_eq in EE. destruct (pair_eqb_spec p' (k, c)); congruence.
    + intros N. exfalso. apply (N (KStr z) v eq_refl). congruence.
    + intros _. destruct (sm_map m p') as [b|]; cbn [fst sm_map] in EE.
      * unfold sm_update in EE. match type of EE with context [assign ?ka ?kb ?kd] => destruct (assign ka kb kd) as [[v' ok]|] end; cbn [fst sm_map] in EE; [|congruence].
        rewrite sm_put_eq in EE. destruct (pair_eqb_spec p' (k, c)); congruence.
      * rewrite sm_put_eq in EE. destruct (pair_eqb_spec p' (k, c)); congruence.
  - apply (RR (slot_at p i)); auto. cbn [istep fst h_kept h_cells slot_of] in *. rewrite (map_nth_error _ _ _ Q1) in Q2.
    destruct o as [key' v| |key'|? ?|key'|? ?| | |]; try contradiction; try discriminate. destruct AO as (z & ->).
    assert (Q3 : snd (moves h (h_map y) (List.length (h_cells y)) (OpSet (KStr z) v)) (Att n i) = Det c2) by congruence.
    destruct (moves_out h (h_map y) m _ z v n i c2 H Q3) as (p3 & P1 & -> & ->). rewrite nth_error_app2 by lia.
    replace (List.length (h_cells y) + i - List.length (h_cells y))%nat with i by lia. cbn [slot_of] in SL. rewrite P1 in SL. exact SL.
Qed.
Print Assumptions C79_calls_keep.

(** * What the model refutes, and examples *)
Definition ld_ (k : string) := ILoad (KStr k).
Definition run5 (os : list iop) : xstate := irun (hpos five) (new_items 32) os.
(** the caller sets b, keeps the item, and sets c *)
Definition b_then_c : list iop := [ICall (set_ "b" 2); ld_ "b"; ICall (set_ "c" 3)].
(** the caller sets b, keeps the item, and sets a, whose position is smaller *)
Definition b_then_a : list iop := [ICall (set_ "b" 2); ld_ "b"; ICall (set_ "a" 1)].

Lemma allowed_ok os : forallb (fun o => match o with ICall o => sor_b o | IDelete _ => false | _ => true end) os = true -> Forall allowed os.
Proof.
  rewrite forallb_forall, Forall_forall. intros H o Ho. specialize (H o Ho). destruct o as [o| | | | | | |]; cbn [allowed]; auto; [|discriminate].
  assert (F : Forall store_or_read [o]) by (apply sor_ok; cbn [forallb]; rewrite H; reflexivity). inversion F; auto.
Qed.
Lemma obtained_b : obtained (hpos five) 32 [ICall (set_ "b" 2)] (KStr "b") [ICall (set_ "c" 3)] (run5 b_then_c) 0.
Proof.
  split; [apply allowed_ok; reflexivity|]. split; [apply nocol_ok; vm_compute; reflexivity|]. split; [vm_compute; reflexivity|].
  split; [eexists; vm_compute; reflexivity|]. split; vm_compute; reflexivity.
Qed.
Lemma obtained_a : obtained (hpos five) 32 [ICall (set_ "b" 2)] (KStr "b") [ICall (set_ "a" 1)] (run5 b_then_a) 0.
Proof.
  split; [apply allowed_ok; reflexivity|]. split; [apply nocol_ok; vm_compute; reflexivity|]. split; [vm_compute; reflexivity|].
  split; [eexists; vm_compute; reflexivity|]. split; vm_compute; reflexivity.
Qed.

(** A kept item is not always the item in the map, although its key was never deleted: Set of another key can take it out. SetValue of the
    item then answers true and Get answers the old value. *)
Definition kept_item_is_current : Prop := forall h max before key after x j, 16 <= max -> obtained h max before key after x j -> current h x j key.
Theorem C79_kept_item_refuted : ~ kept_item_is_current.
Proof.
  intros H. destruct (H (hpos five) 32 _ _ _ _ _ ltac:(lia) obtained_a) as (_ & _ & v & _ & _ & HS). specialize (HS (GV 1 7)).
  assert (A : istep (hpos five) (run5 b_then_a) (ISetValue 0 (GV 1 7)) = (fst (istep (hpos five) (run5 b_then_a) (ISetValue 0 (GV 1 7))), Ret (IBool true)))
    by (vm_compute; reflexivity).
  rewrite A in HS. destruct HS as [R _]. clear -R.
  assert (B : snd (istep (hpos five) (fst (istep (hpos five) (run5 b_then_a) (ISetValue 0 (GV 1 7)))) (ICall (get_ "b"))) = Ret (IOut (RVal (GV 1 2) true)))
    by (vm_compute; reflexivity).
  revert R B. unfold reads. fold (get_ "b"). generalize (snd (istep (hpos five) (fst (istep (hpos five) (run5 b_then_a) (ISetValue 0 (GV 1 7)))) (ICall (get_ "b")))).
  intros r [E1|E1] E2; rewrite E1 in E2; discriminate.
Qed.
Print Assumptions C79_kept_item_refuted.

(** With Delete, a kept item can come to be the item of another key: Set uses the place of a deleted key for a new one. *)
Definition kept_item_keeps_key : Prop := forall h max os o j k, 16 <= max ->
  snd (istep h (irun h (new_items max) os) (IKey j)) = Ret (IName k) ->
  snd (istep h (fst (istep h (irun h (new_items max) os) (ICall o))) (IKey j)) = Ret (IName k).
Definition b_deleted : list iop := [ICall (set_ "a" 1); ICall (set_ "b" 2); ICall (set_ "c" 3); ld_ "b"; ICall (del_ "b")].
Theorem C79_recycled_refuted : ~ kept_item_keeps_key.
Proof.
  intros H. specialize (H (hpos five) 32 b_deleted (set_ "d" 3) 0%nat (KStr "b") ltac:(lia) ltac:(vm_compute; reflexivity)).
  vm_compute in H. discriminate.
Qed.
Print Assumptions C79_recycled_refuted.

(** the hypotheses of the theorems are met: updates, reads, SetValue of the item and a new key of another bucket are quiet; Set of a, above, is
    a call that shoves b out *)
Definition quiet_b (h : hashes) (x : xstate) (key : gkey) (o : iop) : bool :=
  match o with
  | ICall (OpSet key' v) =>
      match snd (istep h x (ICall (OpGet key'))) with
      | Ret (IOut (RVal GNil false)) =>
          match key_to_hash h key, key_to_hash h key' with
          | Some p, Some p' => negb (together (edump (h_map x)) (reverse64 (fst p)) (reverse64 (fst p')))
          | _, _ => true
          end
      | _ => true
      end
  | _ => true
  end.
Fixpoint quiet_run_b (h : hashes) (x : xstate) (key : gkey) (os : list iop) : bool :=
  match os with [] => true | o :: os' => quiet_b h x key o && quiet_run_b h (fst (istep h x o)) key os' end.
Lemma quiet_ok h key : forall os x, quiet_run_b h x key os = true -> quiet_run h x key os.
Proof.
  induction os as [|o os IH]; intros x; cbn [quiet_run quiet_run_b]; auto. intros B. apply andb_true_iff in B as [B1 B2]. split; auto.
  unfold quiet, quiet_b in *. destruct o as [[key' v| | | | | | | |]| | | | | | |]; auto. unfold not_found. intros N (p & p' & E1 & E2 & T).
  rewrite N, E1, E2, T in B1. discriminate.
Qed.
Definition hfar := hpos [("b", 20); ("c", 30); ("z", 2 ^ 63 + 5)]%string.
Definition calm : list iop := [ICall (set_ "z" 6); ICall (get_ "b"); ICall (set_ "b" 5); ISetValue 0 (GV 1 8); ICall OpLen].
Example C79_stays_current_case :
  let x := irun hfar (new_items 32) ([ICall (set_ "c" 3); ICall (set_ "b" 2)] ++ ld_ "b" :: calm) in
  obtained hfar 32 [ICall (set_ "c" 3); ICall (set_ "b" 2)] (KStr "b") calm x 0 /\
  quiet_run hfar (irun hfar (new_items 32) ([ICall (set_ "c" 3); ICall (set_ "b" 2)] ++ [ld_ "b"])) (KStr "b") calm /\
  snd (istep hfar x (ICall (get_ "b"))) = Ret (IOut (RVal (GV 1 8) true)).
Proof.
  split; [|split].
  - split; [apply allowed_ok; reflexivity|]. split; [apply nocol_ok; vm_compute; reflexivity|]. split; [vm_compute; reflexivity|].
    split; [eexists; vm_compute; reflexivity|]. split; vm_compute; reflexivity.
  - apply quiet_ok. vm_compute. reflexivity.
  - vm_compute. reflexivity.
Qed.
Example C79_shoved_out_case :
  obtained (hpos five) 32 [ICall (set_ "b" 2)] (KStr "b") ([] ++ [ICall (set_ "a" 1)]) (run5 b_then_a) 0 /\
  shoves (hpos five) (irun (hpos five) (new_items 32) ([ICall (set_ "b" 2)] ++ ld_ "b" :: [])) (KStr "b") (ICall (set_ "a" 1)).
Proof.
  split; [exact obtained_a|]. exists (KStr "a"), (GV 1 1), (KStr "b"), (GV 1 2), (reverse64 10, 1), (reverse64 20, 1). split; [reflexivity|].
  split; [vm_compute; reflexivity|]. split. { exists (reverse64 20, 1), (reverse64 10, 1). split; [|split]; vm_compute; reflexivity. }
  split; [vm_compute; reflexivity|]. split. { exists (reverse64 20, 1), (reverse64 20, 1). split; [|split]; vm_compute; reflexivity. }
  split; [vm_compute; reflexivity|]. split; vm_compute; reflexivity.
Qed.
