(** What holds of the default map after every history, whatever is stored:
    the list is sorted, its two ends are the sentinels, and every stored item comes from a call. *)
From Verif Require Import Base BaseProofs Util UtilProofs Bucket TrieProofs MapModel ItemProofs MapStep MapInit Spec.
From Coq Require Import ZifyBool Sorted.
Local Open Scope Z_scope.
Local Opaque reverse64 level_of base find_bucket.

Definition d_first : entry := dummy_of (top 0) 0.
Definition d_last : entry := dummy_of bmax MAX64.
Definition ends (l : list entry) : Prop := exists mid, l = d_first :: mid ++ [d_last].
Definition items_ok (Q : entry -> Prop) (l : list entry) : Prop :=
  rsorted l /\ ends l /\ forall e, In e l -> e_dummy e = None -> Q e.
Definition nn (t : trie) : Prop := forall n, 0 <= brev t n.
Definition inv0 (Q : entry -> Prop) (s : mstate) : Prop := items_ok Q (m_items s) /\ nn (m_trie s).

(** * Zippers of such a list *)
Lemma ends_replace l e e' r : ends (l ++ e :: r) -> e_dummy e = None -> ends (l ++ e' :: r).
Proof.
  intros (mid & E) H. destruct l as [|x l].
  - cbn in E. injection E as -> _. discriminate.
  - cbn in E. injection E as -> E.
    assert (r <> []).
    { intros ->. apply app_inj_tail in E as [_ ->]. discriminate. }
    destruct (exists_last H0) as (r' & z & ->).
    rewrite app_comm_cons, app_assoc in E. apply app_inj_tail in E as [_ ->].
    exists (l ++ e' :: r'). cbn. rewrite <- app_assoc. auto.
Qed.
Lemma ends_insert l e r : ends (l ++ r) -> r <> [] -> l <> [] -> ends (l ++ e :: r).
Proof.
  intros (mid & E) Hr Hl. destruct l as [|x l]; [congruence|].
  destruct (exists_last Hr) as (r' & z & ->).
  cbn in E. injection E as -> E. rewrite app_assoc in E. apply app_inj_tail in E as [_ ->].
  exists (l ++ e :: r'). cbn. rewrite <- app_assoc. auto.
Qed.
Lemma ends_first l x r : ends (x :: l ++ r) -> x = d_first.
Proof. intros (mid & E). injection E; auto. Qed.
Lemma ends_last l r : ends (l ++ r) -> r <> [] -> In d_last r.
Proof.
  intros (mid & E) Hr. destruct (exists_last Hr) as (r' & z & ->).
  rewrite app_assoc in E. rewrite app_comm_cons in E. apply app_inj_tail in E as [_ ->].
  apply in_or_app; right; left; auto.
Qed.

Lemma ins_checked Q items z e z' : items_ok Q items -> zip_of items z -> 0 <= e_rev e ->
  (e_rev e = 0 -> fst z <> []) -> (e_dummy e = None -> Q e) ->
  checked_insert z e = Some z' -> items_ok Q (unzip z').
Proof.
  intros (S & E & A) Z H0 Hf HQ C. apply checked_insert_some in C as (-> & (r & rs & Er & Hr) & Hl).
  destruct z as [l r0]. unfold zip_of in Z. cbn [fst snd] in *. subst r0. subst items. rewrite unzip_eq.
  apply sorted_app in S as (S1 & S2 & S3).
  assert (Sl : forall a, In a (rev l) -> e_rev a <= e_rev e).
  { intros a Ha. destruct Hl as [->|(p & ps & -> & Hp)]; [destruct Ha|].
    cbn [rev] in *. apply sorted_app in S1 as (_ & _ & S4). apply in_app_or in Ha as [Ha|[<-|[]]]; auto.
    specialize (S4 a p Ha (or_introl eq_refl)). unfold rle in S4. lia. }
  assert (Sr : forall b, In b (r :: rs) -> e_rev e <= e_rev b).
  { intros b [<-|Hb]; auto. inversion S2 as [|? ? _ F]; subst. rewrite Forall_forall in F.
    specialize (F b Hb). unfold rle in F. lia. }
  split; [|split].
  - apply sorted_app. split; auto. split.
    + constructor; auto. apply Forall_forall. auto.
    + intros a b Ha [<-|Hb]; [apply Sl; auto|apply S3; auto].
  - apply ends_insert; auto; [discriminate|].
    destruct l as [|p l]; [|cbn; destruct (rev l); discriminate].
    intros _. cbn in E. pose proof (ends_first rs r [] ltac:(rewrite app_nil_r; auto)) as Ef. subst r.
    cbn in Hr. apply Hf; auto. lia.
  - intros x Hx Hd. apply in_app_or in Hx as [Hx|[<-|Hx]]; auto.
    + apply A; auto. apply in_or_app; auto.
    + apply A; auto. apply in_or_app; auto.
Qed.

Lemma replace_ok (Q Q' : entry -> Prop) l e e' r : items_ok Q (rev l ++ e :: r) -> e_dummy e = None ->
  e_dummy e' = None -> e_rev e' = e_rev e -> (forall x, Q x -> Q' x) -> (Q e -> Q' e') ->
  items_ok Q' (rev l ++ e' :: r).
Proof.
  intros (S & E & A) Hd Hd' Hr HQ HQe. split; [|split].
  - apply sorted_app in S as (S1 & S2 & S3). inversion S2 as [|? ? S4 F]; subst.
    apply sorted_app. split; auto. split.
    + constructor; auto. eapply Forall_impl; [|exact F]. unfold rle. intros; lia.
    + intros a b Ha [<-|Hb]; unfold rle in *.
      * rewrite Hr. apply (S3 a e Ha). left; auto.
      * apply S3; auto. right; auto.
  - eapply ends_replace; eauto.
  - intros x Hx Hdx. apply in_app_or in Hx as [Hx|[<-|Hx]].
    + apply HQ, A; auto. apply in_or_app; auto.
    + apply HQe, A; auto. apply in_or_app; right; left; auto.
    + apply HQ, A; auto. apply in_or_app; right; right; auto.
Qed.

(** * Searches return positions in the list *)
Lemma head_z_zip s n z : head_z s n = Some z -> zip_of (m_items s) z /\ snd z <> [].
Proof.
  unfold head_z. intros H. destruct (seek_spec _ _ _ _ H) as (mid & d & r & E & -> & _).
  unfold zip_of. cbn [fst snd]. rewrite app_nil_r, rev_involutive. split; auto. discriminate.
Qed.
Lemma search_zip s n rv z : search s n rv = Ret (Some z) ->
  exists l e r, z = (l, e :: r) /\ m_items s = rev l ++ e :: r /\ live e = true /\ e_rev e = rv.
Proof.
  unfold search. cbv zeta. match goal with |- context [if ?c then next_on ?a ?b else ?d] => 
    generalize (if c then next_on a b else d); intros st end.
  destruct (brev (m_trie s) st <? rv).
  - destruct (head_z s st) as [[l r]|] eqn:HZ; [|discriminate]. intros H. injection H as H.
    apply head_z_zip in HZ as [HZ _]. unfold zip_of in HZ; cbn [fst snd] in HZ.
    apply scan_fwd_some in H as (mid & e & r' & -> & -> & HL & HR).
    exists (rev mid ++ l), e, r'. repeat split; auto.
    rewrite rev_app_distr, rev_involutive, <- app_assoc. auto.
  - destruct (head_z s st) as [[l [|x r]]|] eqn:HZ; try discriminate. intros H.
    assert (H' : scan_bwd rv (x :: l) r = Some z) by congruence. clear H. rename H' into H.
    apply head_z_zip in HZ as [HZ _]. unfold zip_of in HZ; cbn [fst snd] in HZ.
    apply scan_bwd_some in H as (mid & e & l' & E & -> & HL & HR).
    exists l', e, (rev mid ++ r). repeat split; auto.
    rewrite <- HZ. change (x :: r) with ([x] ++ r). rewrite app_assoc.
    change (rev l ++ [x]) with (rev (x :: l)). rewrite E, rev_app_distr.
    cbn [rev]. rewrite <- !app_assoc. auto.
Qed.
Lemma check_pair_some rv c z z' : check_pair rv c z = Some z' ->
  exists l e r, z = Some z' /\ z' = (l, e :: r) /\ e_rev e = rv /\ e_conf e = c.
Proof.
  unfold check_pair. destruct z as [[l [|e r]]|]; try discriminate.
  destruct (_ && _) eqn:C; [|discriminate]. intros H; inversion H; subst. exists l, e, r. repeat split; auto; lia.
Qed.
Definition hit (s : mstate) (k c : Z) (z : zip) : Prop :=
  exists l e r, z = (l, e :: r) /\ m_items s = rev l ++ e :: r /\ live e = true /\
    e_rev e = reverse64 k /\ e_conf e = c.
Lemma load_hit s k c z : load s k c = Ret (Some z) -> hit s k c z.
Proof.
  unfold load, rbind. destruct (search _ _ _) as [x| | |] eqn:S; try discriminate. intros H. injection H as H.
  apply check_pair_some in H as (l & e & r & -> & -> & E1 & E2).
  apply search_zip in S as (l' & e' & r' & E & Ei & HL & HR). inversion E; subst l' e' r'.
  exists l, e, r. auto.
Qed.
Lemma get_hit s k c z : get s k c = Ret (Some z) -> hit s k c z.
Proof.
  unfold get, rbind. cbv zeta. destruct (search _ _ _) as [x| | |] eqn:S; try discriminate. intros H. injection H as H.
  apply check_pair_some in H as (l & e & r & -> & -> & E1 & E2).
  apply search_zip in S as (l' & e' & r' & E & Ei & HL & HR). inversion E; subst l' e' r'.
  exists l, e, r. auto.
Qed.
Lemma live_not_dummy e : live e = true -> e_dummy e = None.
Proof. unfold live, ignored. destruct (e_dummy e); auto. discriminate. Qed.

(** * The bucket table keeps non-negative positions *)
Lemma nn_tset t n b : nn t -> 0 <= b_rev b -> nn (tset t n b).
Proof.
  intros H Hb m. unfold brev. rewrite bget_tset. destruct (nid_eqb n m); auto. apply H.
Qed.
Lemma nn_tupd t n f : nn t -> (forall b, 0 <= b_rev b -> 0 <= b_rev (f b)) -> nn (tupd t n f).
Proof. intros H Hf. apply nn_tset; auto. apply Hf, H. Qed.
Lemma nn_tupd_same t n f : nn t -> (forall b, b_rev (f b) = b_rev b) -> nn (tupd t n f).
Proof. intros H Hf. apply nn_tupd; auto. intros b. rewrite Hf. auto. Qed.
Lemma nib_nonneg v l : 0 <= nib v l.
Proof. unfold nib. apply Z.land_nonneg. lia. Qed.
Lemma nn_ensure t lv l n : nn t -> nn (fst (ensure_down t lv l n)).
Proof.
  intros H. unfold ensure_down. destruct (_ =? 0); cbn [fst]; auto.
  apply nn_tset; [apply nn_tset; auto; apply H|apply H].
Qed.
Lemma nn_new_child t n l rv : nn t -> 0 <= b_rev (new_child t n l (nib rv l)).
Proof.
  intros H. cbn. apply Z.lor_nonneg. split; [apply H|]. apply Z.shiftl_nonneg, nib_nonneg.
Qed.
Lemma nn_bfp fuel : forall t lv l level rv n, nn t -> nn (fst (fst (bfp_loop fuel t lv l level rv n))).
Proof.
  induction fuel as [|f IH]; intros t lv l level rv n H; cbn [bfp_loop]; auto.
  destruct (level <? l); auto.
  pose proof (nn_ensure t lv l n H) as H1. destruct (ensure_down t lv l n) as [t1 lv1]. cbn [fst] in H1. cbv zeta.
  destruct (_ <=? _); cbn [fst].
  - apply nn_tupd_same; auto. apply nn_tset; auto. apply nn_new_child; auto.
  - destruct (_ && _); cbn [fst]; auto. apply nn_tset; auto. apply nn_new_child; auto.
Qed.
Lemma new_reverse_nn t c n : nn t -> 0 <= new_reverse t c n.
Proof.
  intros H. unfold new_reverse. destruct (_ && _); [apply reverse64_range|].
  destruct (nid_eqb c n); [apply Z.div_pos; [apply H|lia]|].
  assert (P : 0 < W64) by reflexivity.
  destruct (_ =? _); [apply Z.mod_pos_bound; auto|].
  unfold half. destruct (_ <? _); apply Z.mod_pos_bound; auto.
Qed.

(** * The operations *)
Lemma add_dummy_ok Q items z e z' : items_ok Q items -> zip_of items z -> snd z <> [] -> 0 <= e_rev e ->
  e_dummy e <> None -> add_dummy items z e = Some z' -> items_ok Q (unzip z').
Proof.
  intros I Z Hz H0 Hd. unfold add_dummy. destruct (find_gt _ _ _) as [w|] eqn:F.
  - pose proof Z as Z0. destruct z as [l r]. cbn [fst snd] in *.
    pose proof (zip_of_find_gt _ _ _ _ _ Z F) as Zw.
    apply find_gt_spec in F as (mid & x & r' & E & -> & Hx & _).
    intros C. eapply ins_checked; eauto; [|congruence].
    intros _ Hn. cbn [fst] in Hn. unfold zip_of in Zw. cbn [fst snd] in Zw. rewrite Hn in Zw. cbn in Zw.
    destruct I as (_ & Ei & _). rewrite <- Zw in Ei.
    pose proof (ends_first r' x [] ltac:(rewrite app_nil_r; auto)). subst x. cbn in Hx. lia.
  - destruct (rev items) as [|x l] eqn:R; [discriminate|]. intros C.
    assert (Ei : items = rev l ++ [x]) by (rewrite <- (rev_involutive items), R; reflexivity).
    assert (Zx : zip_of items (l, [x])) by exact (eq_sym Ei).
    apply (ins_checked Q items (l, [x]) e z'); auto; [|congruence].
    intros _ Hn. cbn [fst] in Hn. subst l. cbn in Ei. destruct I as (_ & (mid & E) & _).
    rewrite Ei in E. destruct mid; discriminate.
Qed.

Lemma add_bucket_ok Q s b rv : inv0 Q s -> 0 <= rv -> inv0 Q (add_bucket s b rv).
Proof.
  intros [I T] H. unfold add_bucket. destruct (bucket_below _ _ _) as [n|]; [|split; auto].
  destruct (head_z s n) as [z|] eqn:HZ; [|split; auto].
  apply head_z_zip in HZ as [Z Hz].
  destruct (add_dummy (m_items s) z (dummy_of b rv)) as [z'|] eqn:A; cbn; split; auto.
  apply (add_dummy_ok Q (m_items s) z (dummy_of b rv)); auto. discriminate.
Qed.

Lemma make_bucket_ok Q s er : inv0 Q s -> inv0 Q (fst (make_bucket s er)).
Proof.
  intros [I T]. unfold make_bucket. cbv zeta.
  destruct (first_below _ _ _) as [c0|]; [|split; auto].
  destruct (walk_up _ _ _ _ _) as [c next].
  destruct (_ || _); [split; auto|].
  pose proof (new_reverse_nn (m_trie s) c next T) as NR.
  generalize dependent (new_reverse (m_trie s) c next). intros nr NR.
  unfold bucket_from_pool. destruct (_ =? 0); [split; auto|].
  pose proof (nn_bfp 15 (m_trie s) (m_lv s) 2 (level_of nr) nr (top_of nr) T) as T1.
  destruct (bfp_loop 15 _ _ _ _ _ _) as [[t1 lv1] b]. cbn [fst] in T1.
  destruct (head_z _ b); [split; auto|].
  assert (T2 : nn (if brev t1 b =? nr then t1 else tupd t1 b (fun x => set_blen (set_brev x nr) 0))).
  { destruct (_ =? nr); auto. apply nn_tupd; auto. }
  generalize dependent (if brev t1 b =? nr then t1 else tupd t1 b (fun x => set_blen (set_brev x nr) 0)).
  intros t2 T2.
  destruct (_ && _); [split; auto|].
  match goal with |- context [add_bucket ?x b nr] => assert (I2 : inv0 Q (add_bucket x b nr)) end.
  { apply add_bucket_ok; auto. split; auto. cbn [set_trie m_trie].
    apply nn_tupd_same; auto. apply nn_tupd_same; auto. }
  generalize dependent (add_bucket (set_trie (set_lv (set_trie s t1) lv1)
    (tupd (tupd t2 b (fun x => set_blen x (b_len (bget t2 b) +
       match head_z (set_lv (set_trie s t1) lv1) c with Some (_, r) => count_upto nr r | None => 0 end))) c
       (fun x => set_blen x (b_len x - (b_len (bget t2 b) +
       match head_z (set_lv (set_trie s t1) lv1) c with Some (_, r) => count_upto nr r | None => 0 end))))) b nr).
  intros s2 I2. destruct (head_z s2 b); cbn [fst]; auto.
Qed.

Lemma add_item_ok Q s n zd zs e z : items_ok Q (m_items s) -> zip_of (m_items s) zd -> snd zd <> [] ->
  zip_of (m_items s) zs -> snd zs <> [] -> 0 <= e_rev e -> (e_dummy e = None -> Q e) ->
  add_item s n zd zs e = Some z -> items_ok Q (unzip z).
Proof.
  intros I Zd Hd Zs Hs H0 HQ. unfold add_item. destruct (find_gt _ _ _) as [w|] eqn:F.
  - destruct zs as [l r]. cbn [fst snd] in *.
    pose proof (zip_of_find_gt _ _ _ _ _ Zs F) as Zw.
    apply find_gt_spec in F as (mid & x & r' & E & -> & Hx & _).
    intros C. eapply ins_checked; eauto.
    intros _ Hn. cbn [fst] in Hn. unfold zip_of in Zw. cbn [fst snd] in Zw. rewrite Hn in Zw. cbn in Zw.
    destruct I as (_ & Ei & _). rewrite <- Zw in Ei.
    pose proof (ends_first r' x [] ltac:(rewrite app_nil_r; auto)). subst x. cbn in Hx. lia.
  - assert (HM : MAX64 <= e_rev e).
    { apply (find_gt_none _ _ _ F d_last). unfold zip_of in Zs. destruct I as (_ & Ei & _).
      rewrite <- Zs in Ei. eapply ends_last; eauto. }
    rewrite MAX64_val in HM. cbv zeta.
    assert (W : forall w, zip_of (m_items s) w -> checked_insert w e = Some z -> items_ok Q (unzip z)).
    { intros w Zw C. eapply ins_checked; eauto. lia. }
    destruct (_ <=? _).
    + destruct (head_z s _) as [w|] eqn:HZ; [|discriminate]. apply head_z_zip in HZ as [Zw _]. apply W; auto.
    + apply W. apply zip_of_forth; auto.
Qed.

Lemma t_start_zip items rk zd : zip_of items zd -> snd zd <> [] -> zip_of items (t_start rk zd) /\ snd (t_start rk zd) <> [].
Proof.
  intros Z H. unfold t_start. destruct zd as [l r]. cbn [fst snd] in *.
  destruct (find_ge rk l r) as [w|] eqn:F; [|auto].
  pose proof (zip_of_find_ge _ _ _ _ _ Z F) as Zw.
  destruct w as [[|p wl] wr]; cbn [fst]; [auto|]. destruct (_ <? _); [|auto].
  split; [apply zip_of_back; auto|]. unfold back; cbn. discriminate.
Qed.

Lemma set_ok Q s k n e : inv0 Q s -> 0 <= e_rev e -> (e_dummy e = None -> Q e) -> inv0 Q (fst (set_ s k n e)).
Proof.
  intros [I T] H0 HQ. unfold set_. destruct (head_z s n) as [zd|] eqn:HZ; [|split; auto].
  apply head_z_zip in HZ as [Zd Hd].
  destruct (t_start_zip (m_items s) (reverse64 k) zd Zd Hd) as [Zs Hs]. cbv zeta.
  pose proof (fun z => add_item_ok Q s n zd (t_start (reverse64 k) zd) e z I Zd Hd Zs Hs H0 HQ) as A.
  set (p := match add_item s n zd (t_start (reverse64 k) zd) e with
            | Some z => (unzip z, match fst z with [] => 0 | p :: _ => e_rev p end)
            | None => (m_items s, e_rev e) end).
  assert (I1 : items_ok Q (fst p)).
  { unfold p. destruct (add_item _ _ _ _ _) as [z|]; cbn [fst]; auto. }
  clearbody p. destruct p as [items er]. cbn [fst] in I1.
  match goal with |- context [m_max ?x <? _] => assert (I2 : inv0 Q x) end.
  { destruct (0 <? _); split; auto. cbn [set_trie m_trie]. apply nn_tupd_same; auto. }
  match type of I2 with inv0 _ ?x => generalize dependent x end. intros s2 I2.
  destruct (_ <? _); auto. apply make_bucket_ok; auto.
Qed.

(** * One call *)


Section Step.
Variable (h : hashes) (s : mstate) (o : op) (Q Q' : entry -> Prop).
Hypothesis I : inv0 Q s.
Hypothesis HQ : forall x, Q x -> Q' x.
Hypothesis Hdel : forall x vw, Q x -> Q' (del_entry vw x).
Hypothesis Hupd : forall x k c, writes h o = Some (k, c) -> e_rev x = reverse64 k -> e_conf x = c -> Q x ->
  Q' (set_e_val x (written o)).
Hypothesis Hset : forall key v k c, o = OpSet key v -> writes h o = Some (k, c) ->
  Q' (entry_of (mkI KSample key v 0 0 false) k c).
Hypothesis Hstore : forall i k c, o = OpStore i -> writes h o = Some (k, c) ->
  Q' (entry_of i k c) /\ 0 <= e_rev (entry_of i k c).

Lemma inv0_weaken : inv0 Q' s.
Proof. destruct I as [(A & B & C) T]. split; auto. split; auto. Qed.
Lemma inv0_update k c z : writes h o = Some (k, c) -> hit s k c z -> inv0 Q' (fst (update s z (written o))).
Proof.
  intros W (l & e & r & -> & Ei & HL & HR & HC). destruct I as [I1 T].
  unfold update. cbn [snd]. destruct (set_value _ _ _) as [[v' ok]|] eqn:V; [|apply inv0_weaken].
  cbn [fst]. split; auto. cbn [set_items m_items]. unfold upd_cur. cbn [fst snd]. rewrite rev_append_rev.
  rewrite Ei in I1. eapply replace_ok; eauto.
  - apply live_not_dummy; auto.
  - apply (live_not_dummy e); auto.
  - intros Qe. assert (V' : v' = written o \/ v' = e_val e).
    { unfold set_value in V. destruct (m_view s); [|inversion V; auto].
      destruct (written o); [inversion V; auto|]. destruct (e_val e); [inversion V; auto|].
      destruct (_ =? _); [inversion V; auto|discriminate]. }
    destruct V' as [->| ->]; [eapply Hupd; eauto|].
    replace (set_e_val e (e_val e)) with e by (destruct e; auto). auto.
Qed.
Lemma inv0_delete key : inv0 Q' (fst (delete h s key)).
Proof.
  unfold delete. destruct (key_to_hash h key) as [[k c]|]; [|apply inv0_weaken].
  destruct (load s k c) as [[z|]| | |] eqn:L; try apply inv0_weaken.
  apply load_hit in L as (l & e & r & -> & Ei & HL & HR & HC). destruct I as [I1 T].
  cbn [fst]. split; auto. cbn [set_items m_items]. unfold upd_cur. cbn [fst snd]. rewrite rev_append_rev.
  rewrite Ei in I1. eapply replace_ok; eauto; try (apply live_not_dummy in HL; auto; fail).
Qed.
Lemma step_any : inv0 Q' (fst (step h s o)).
Proof.
  pose proof inv0_weaken as IW. pose proof inv0_update as UPD. pose proof inv0_delete as DEL.
  assert (GV : forall r, inv0 Q' (fst (get_val s r))).
  { intros r. unfold get_val. destruct r as [[[l [|e r]]|]| | |]; auto. }
  assert (GI : forall r, inv0 Q' (fst (get_item s r))).
  { intros r. unfold get_item. destruct r as [[[l [|e r]]|]| | |]; auto. }
  destruct o as [key v|i|key|k c|key|k c|key|key|] eqn:Eo; cbn [step]; auto.
  - unfold set. destruct (key_to_hash h key) as [[k c]|] eqn:K; auto.
    destruct (load s k c) as [[z|]| | |] eqn:L; auto.
    + apply load_hit in L. apply (UPD k c z); auto.
    + cbv zeta. set (s1 := if _ && _ then set_mpool s true else s).
      assert (I1 : inv0 Q' s1) by (unfold s1; destruct (_ && _); auto).
      destruct key; auto.
      match goal with |- context [set_ ?x ?a ?n ?e] => pose proof (set_ok Q' x a n e) as P; destruct (set_ x a n e) as [s3 p] end.
      cbn [fst] in *. apply P; auto. apply reverse64_range.
  - unfold store, item_hash. destruct (key_to_hash h (i_key i)) as [[k c]|] eqn:K; auto.
    destruct (load s k c) as [[z|]| | |] eqn:L; auto.
    + apply load_hit in L. apply (UPD k c z); auto.
    + match goal with |- context [set_ ?x ?a ?n ?e] => pose proof (set_ok Q' x a n e) as P; destruct (set_ x a n e) as [s3 p] end.
      destruct (Hstore i k c eq_refl K) as [A B].
      cbn [fst] in *. apply P; auto.
  - unfold with_key. destruct (key_to_hash h key) as [[k c]|]; auto.
  - unfold with_key. destruct (key_to_hash h key) as [[k c]|]; auto.
Qed.
End Step.
