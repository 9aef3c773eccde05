(** C21: exactly when a lookup of the embedded map does not come back. *)
From Verif Require Import Base BaseProofs Util UtilProofs Bucket TrieProofs TrieInv TrieGrow MapModel ItemProofs MapInv MapSplit
  MapInit Spec MapRefine EmbModel EmbPool EmbTrie EmbInv EmbSplit EmbSpec EmbRefine EmbDel EmbTop EmbHang EmbBal PropEmb.
From Coq Require Import ZifyBool Sorted Ascii String.
Local Open Scope Z_scope.
Local Opaque reverse64 level_of base find_bucket.

Lemma positions_app h os1 os2 : positions h (os1 ++ os2) = positions h os1 ++ positions h os2.
Proof. unfold positions. apply flat_map_app. Qed.
Lemma erun_snoc h os o s : existsb stops (eouts h s os) = false -> erun h s (os ++ [o]) = fst (estep h (erun h s os) o).
Proof.
  revert s. induction os as [|a os IH]; intros s; cbn [app eouts erun existsb].
  - intros _. destruct (estep h s o) as [s' r]. cbn [fst]. destruct (stops r); auto.
  - destruct (estep h s a) as [s' r]. destruct (stops r) eqn:E; cbn [existsb]; rewrite E; cbn [orb]; [discriminate|]. apply IH.
Qed.
Lemma sm_run_snoc h os o : forall m, sm_run h m (os ++ [o]) = fst (sm_step h (sm_run h m os) o).
Proof. induction os as [|a os IH]; intros m; cbn [app sm_run]; auto. Qed.
Lemma sm_outs_snoc h os o : forall m, sm_outs h m (os ++ [o]) = sm_outs h m os ++ [snd (sm_step h (sm_run h m os) o)].
Proof. induction os as [|a os IH]; intros m; cbn [app sm_outs sm_run]; auto. rewrite IH. auto. Qed.
Lemma seen_runs rs es : map seen rs = map Some es -> existsb stops rs = false.
Proof.
  revert es. induction rs as [|r rs IH]; intros [|e es] H; cbn [map existsb] in *; try discriminate; auto.
  injection H as E H. rewrite (IH _ H). destruct r; cbn in *; try discriminate; auto.
Qed.

(** nothing is stored under a pair that collides with a pair of the history *)
Lemma run_written h os : forall m k c, sm_map m (k, c) = None -> sm_map (sm_run h m os) (k, c) <> None ->
  exists o, In o os /\ writes h o = Some (k, c).
Proof.
  induction os as [|o os IH]; intros m k c E N; cbn [sm_run] in N; [contradiction|].
  destruct (sm_map (fst (sm_step h m o)) (k, c)) eqn:E1.
  - destruct (sm_step_writes h m o k c) as [X|X]; [congruence|congruence|]. exists o. split; [left; auto|auto].
  - destruct (IH _ _ _ E1 N) as (o' & H1 & H2). exists o'. split; [right; auto|auto].
Qed.

Section History.
Variables (h : hashes) (max : Z).
Hypothesis HM : 16 <= max.
Let good (os : list op) : Prop := Forall store_or_read os /\ no_collision h os /\ ~ In (2 ^ 64 - 1) (positions h os).
Lemma good_pre os1 os2 : good (os1 ++ os2) -> good os1.
Proof.
  intros (G1 & G2 & G3). split; [apply Forall_app in G1; tauto|]. split.
  - intros o o' k c c' H1 H2. apply G2; apply in_or_app; auto.
  - intros H. apply G3. rewrite positions_app. apply in_or_app; auto.
Qed.
Lemma bal_pre os1 os2 : balanced h max (os1 ++ os2) -> balanced h max os1.
Proof. intros B a b m q ->. apply (B a (b ++ os2)). symmetry. apply app_assoc. Qed.

(** one more call *)
Lemma one_more os o : good (os ++ [o]) ->
  map seen (eouts h (new_emb max) os) = map Some (sm_outs h (sm_empty KSample) os) ->
  brel (erun h (new_emb max) os) (sm_run h (sm_empty KSample) os) (positions h os) -> x_max (erun h (new_emb max) os) = max ->
  let s' := erun h (new_emb max) (os ++ [o]) in
  map seen (eouts h (new_emb max) (os ++ [o])) = map Some (sm_outs h (sm_empty KSample) (os ++ [o])) /\ x_max s' = max /\
  ((brel s' (sm_run h (sm_empty KSample) (os ++ [o])) (positions h (os ++ [o])) /\
      forall m q, lopsided max (positions h (os ++ [o])) m q -> lopsided max (positions h os) m q) \/
   (exists m q, lopsided max (positions h (os ++ [o])) m q /\
      forall rv, 0 <= rv < W64 -> (pool_of (x_trie s') (find_bucket (x_trie s') rv) = None <-> rv / 2 ^ (m - 1) = 2 * q + 1))).
Proof.
  intros (G1 & G2 & G3) AG B MX s'. pose proof (seen_runs _ _ AG) as RUN.
  unfold s'. rewrite (erun_snoc _ _ _ _ RUN), eouts_app, RUN, sm_outs_snoc, sm_run_snoc, !map_app, AG.
  cbn [eouts]. destruct (brel_step h _ _ _ o B) as (A1 & A2 & A3).
  - apply Forall_app in G1 as [_ G1]. inversion G1; auto.
  - intros k c c' HW Nc. destruct (sm_map _ (k, c')) eqn:E; auto. exfalso.
    destruct (run_written h os (sm_empty KSample) k c') as (o' & H1 & H2); [reflexivity|congruence|].
    apply Nc. apply (G2 o' o k c' c); auto; apply in_or_app; [left; auto|right; left; auto].
  - intros k c HW. pose proof (reverse64_range k) as R. rewrite MAX64_val.
    destruct (Z.eq_dec (reverse64 k) (2 ^ 64 - 1)) as [E|N]; [|rewrite W64_val in R; lia].
    exfalso. apply G3. rewrite positions_app. apply in_or_app. right. unfold positions. cbn [flat_map]. rewrite HW. left. auto.
  - rewrite MX in *. rewrite positions_app. destruct (estep h (erun h (new_emb max) os) o) as [s1 r] eqn:ES. cbn [fst snd] in *.
    assert (ST : stops r = false) by (destruct r; cbn in *; congruence). rewrite ST. cbn [map]. rewrite A1. auto.
Qed.

Lemma bal_run os : good os -> balanced h max os ->
  map seen (eouts h (new_emb max) os) = map Some (sm_outs h (sm_empty KSample) os) /\
  brel (erun h (new_emb max) os) (sm_run h (sm_empty KSample) os) (positions h os) /\ x_max (erun h (new_emb max) os) = max.
Proof.
  induction os as [|o os IH] using rev_ind; intros G B.
  { split; auto. split; [apply new_brel; auto|reflexivity]. }
  destruct (IH (good_pre _ _ G) (bal_pre _ _ B)) as (A1 & A2 & A3).
  destruct (one_more os o G A1 A2 A3) as (B1 & B2 & [[B3 _]|(m & q & L & _)]); auto.
  exfalso. apply (B (os ++ [o]) [] m q); auto. rewrite app_nil_r; auto.
Qed.

Lemma eload_div s k c : eload s k c = Div <-> pool_of (x_trie s) (find_bucket (x_trie s) (reverse64 k)) = None.
Proof.
  unfold eload. cbv zeta. destruct (pool_of _ _) as [p|]; [|tauto].
  split; [|discriminate]. destruct (emb_search p _); [|discriminate]. destruct (_ && _); discriminate.
Qed.
Lemma get_div s k c : 0 <= k < W64 ->
  (snd (estep h s (OpGetByHash k c)) = Div <-> pool_of (x_trie s) (find_bucket (x_trie s) (reverse64 k)) = None).
Proof.
  intros Hk. cbn [estep]. unfold eget. assert (EU : u64 k = k) by (apply Z.mod_small; auto). rewrite EU, <- (eload_div s k (u64 c)).
  destruct (eload s k (u64 c)) as [[[n i]|]| | |]; cbn [snd]; split; intros; try discriminate; auto.
Qed.
(** the dead half of a lopsided interval has positions *)
Lemma dead_exists P m q : (forall r, In r P -> 0 <= r < W64) -> lopsided max P m q ->
  let rv := (2 * q + 1) * 2 ^ (m - 1) in 0 <= rv < W64 /\ rv / 2 ^ (m - 1) = 2 * q + 1.
Proof.
  intros HP (M & C & _) rv. pose proof (Z.pow_pos_nonneg 2 (m - 1) ltac:(lia) ltac:(lia)) as PP.
  split; [|apply Z.div_mul; lia].
  destruct (in_block m q P) as [|r l] eqn:E; [cbn in C; lia|].
  assert (X : In r (in_block m q P)) by (rewrite E; left; auto). apply in_block_in in X as [X1 X2].
  specialize (HP r X1). subst q.
  assert (PW : 2 ^ m = 2 * 2 ^ (m - 1)) by (replace m with (Z.succ (m - 1)) at 1 by lia; apply Z.pow_succ_r; lia).
  assert (PX : W64 = 2 ^ (64 - m) * 2 ^ m) by (rewrite <- Z.pow_add_r by lia; replace (64 - m + m) with 64 by lia; reflexivity).
  assert (0 <= r / 2 ^ m) by (apply Z.div_pos; lia).
  assert (r / 2 ^ m < 2 ^ (64 - m)) by (apply Z.div_lt_upper_bound; [lia|]; rewrite Z.mul_comm, <- PX; lia).
  unfold rv. clear rv C E X1 l. set (d := r / 2 ^ m) in *. clearbody d. set (z := 2 ^ (m - 1)) in *. set (w := 2 ^ (64 - m)) in *.
  assert (0 < z) by exact PP. split; [apply Z.mul_nonneg_nonneg; lia|]. rewrite PX, PW. assert ((2 * d + 1) * z < 2 * w * z) by (apply Z.mul_lt_mono_pos_r; lia). lia.
Qed.
Lemma pos_range os r : In r (positions h os) -> 0 <= r < W64.
Proof.
  unfold positions. intros H. apply in_flat_map in H as (o & _ & H). destruct (writes h o) as [[k c]|]; [|destruct H].
  destruct H as [<-|[]]. apply reverse64_range.
Qed.
End History.

(** While the history is balanced every call returns, with the answer of the specification: a bucket that
    becomes over-full always has something to put in its new half. *)
Theorem C21_balanced_histories_return : forall h max os, 16 <= max ->
  Forall store_or_read os -> no_collision h os -> ~ In (2 ^ 64 - 1) (positions h os) -> balanced h max os ->
  map seen (eouts h (new_emb max) os) = map Some (sm_outs h (sm_empty KSample) os).
Proof. intros h max os HM H1 H2 H3 B. apply (bal_run h max HM os); auto. Qed.
Print Assumptions C21_balanced_histories_return.

(** The first call that makes an interval lopsided returns as specified, and from then on there is an interval
    that holds more than [max] positions, all in one half, such that exactly the lookups in its upper half do not come back. *)
Theorem C21_first_lopsided_moment : forall h max os o, 16 <= max ->
  Forall store_or_read (os ++ [o]) -> no_collision h (os ++ [o]) -> ~ In (2 ^ 64 - 1) (positions h (os ++ [o])) ->
  balanced h max os -> (exists m q, lopsided max (positions h (os ++ [o])) m q) ->
  map seen (eouts h (new_emb max) (os ++ [o])) = map Some (sm_outs h (sm_empty KSample) (os ++ [o])) /\
  exists m q, lopsided max (positions h (os ++ [o])) m q /\
    forall k c, 0 <= k < 2 ^ 64 ->
      (snd (estep h (erun h (new_emb max) (os ++ [o])) (OpGetByHash k c)) = Div <-> reverse64 k / 2 ^ (m - 1) = 2 * q + 1).
Proof.
  intros h max os o HM H1 H2 H3 B (m0 & q0 & L0).
  assert (G : Forall store_or_read (os ++ [o]) /\ no_collision h (os ++ [o]) /\ ~ In (2 ^ 64 - 1) (positions h (os ++ [o]))) by auto.
  destruct (bal_run h max HM os (good_pre h _ _ G) B) as (A1 & A2 & A3).
  destruct (one_more h max os o G A1 A2 A3) as (B1 & B2 & [[_ B3]|(m & q & L & D)]).
  - exfalso. apply (B os [] m0 q0); [rewrite app_nil_r; auto|]. apply B3, L0.
  - split; auto. exists m, q. split; auto. intros k c Hk. rewrite get_div by (rewrite W64_val; auto). apply D, reverse64_range.
Qed.
Print Assumptions C21_first_lopsided_moment.

(** Together: every lookup, after every part of the history, comes back exactly if the history is balanced. *)
Theorem C21_lookups_return_iff_balanced : forall h max os, 16 <= max ->
  Forall store_or_read os -> no_collision h os -> ~ In (2 ^ 64 - 1) (positions h os) ->
  ((forall os1 os2 k c, os = os1 ++ os2 -> 0 <= k < 2 ^ 64 ->
      snd (estep h (erun h (new_emb max) os1) (OpGetByHash k c)) <> Div) <-> balanced h max os).
Proof.
  intros h max os HM H1 H2 H3.
  assert (G : Forall store_or_read os /\ no_collision h os /\ ~ In (2 ^ 64 - 1) (positions h os)) by auto. split.
  - clear H1 H2 H3. induction os as [|o os IH] using rev_ind; intros R a b m q E L.
    { symmetry in E. apply app_eq_nil in E as [-> ->]. destruct L as (_ & C & _). cbn in C. lia. }
    assert (B : balanced h max os).
    { apply IH; [apply (good_pre h _ _ G)|]. intros os1 os2 k c EE. apply (R os1 (os2 ++ [o])). rewrite EE. symmetry; apply app_assoc. }
    destruct b as [|z b _] using rev_ind.
    + rewrite app_nil_r in E. subst a. destruct G as (G1 & G2 & G3).
      destruct (C21_first_lopsided_moment h max os o HM G1 G2 G3 B) as (_ & m' & q' & L' & D); [exists m, q; auto|].
      destruct (dead_exists max HM (positions h (os ++ [o])) m' q' (pos_range h (os ++ [o])) L') as [D1 D2]; auto.
      set (rv := (2 * q' + 1) * 2 ^ (m' - 1)) in *.
      pose proof (reverse64_range rv) as RR. rewrite W64_val in RR.
      apply (R (os ++ [o]) [] (reverse64 rv) 0 (eq_sym (app_nil_r _)) RR). apply D; auto. rewrite reverse64_involutive by auto. exact D2.
    + rewrite app_assoc in E. apply app_inj_tail in E as [E _]. apply (B a b m q E L).
  - intros B os1 os2 k c E Hk.
    assert (G1 : Forall store_or_read os1 /\ no_collision h os1 /\ ~ In (2 ^ 64 - 1) (positions h os1)) by (rewrite E in G; apply (good_pre h _ _ G)).
    rewrite E in B. destruct (bal_run h max HM os1 G1 (bal_pre h max _ _ B)) as (A1 & A2 & A3).
    rewrite get_div by (rewrite W64_val; auto). apply (route_alive _ _ (br_inv _ _ _ A2)), reverse64_range.
Qed.
Print Assumptions C21_lookups_return_iff_balanced.

(** * A balanced history that divides a bucket, and a lopsided one *)
Definition lop_b (max : Z) (P : list Z) (m q : Z) : bool :=
  if max <? Z.of_nat (List.length (nodup Z.eq_dec (in_block m q P))) then
  ((Nat.eqb (List.length (in_block (m - 1) (2 * q) P)) 0) || (Nat.eqb (List.length (in_block (m - 1) (2 * q + 1) P)) 0)) else false.
Definition bal_b (h : hashes) (max : Z) (os : list op) : bool :=
  forallb (fun n => let P := positions h (firstn n os) in
    if max <? Z.of_nat (List.length P) then
    forallb (fun i => let m := Z.of_nat i in forallb (fun r => negb (lop_b max P m (r / 2 ^ m))) P) (seq 1 60) else true)
    (seq 0 (S (List.length os))).
Lemma nodup_le (l : list Z) : (List.length (nodup Z.eq_dec l) <= List.length l)%nat.
Proof. apply NoDup_incl_length; [apply NoDup_nodup|]. intros z Hz. apply nodup_In in Hz; auto. Qed.
Lemma filter_le {A} (f : A -> bool) l : (List.length (filter f l) <= List.length l)%nat.
Proof. induction l as [|x l IH]; cbn [filter List.length]; [lia|]. destruct (f x); cbn [List.length]; lia. Qed.
Lemma bal_ok h max os : 0 <= max -> bal_b h max os = true -> balanced h max os.
Proof.
  intros HM HB os1 os2 m q E (M & C & H). unfold bal_b in HB. rewrite forallb_forall in HB.
  specialize (HB (List.length os1)). rewrite E, firstn_app, Nat.sub_diag, firstn_all, firstn_O, app_nil_r in HB. cbv zeta in HB.
  set (P := positions h os1) in *.
  assert (LB : (List.length (nodup Z.eq_dec (in_block m q P)) <= List.length P)%nat)
    by (eapply Nat.le_trans; [apply nodup_le|]; apply filter_le).
  destruct (Z.ltb_spec max (Z.of_nat (List.length P))) as [_|X]; [|lia].
  specialize (HB ltac:(apply in_seq; rewrite app_length; lia)). rewrite forallb_forall in HB.
  specialize (HB (Z.to_nat m) ltac:(apply in_seq; lia)). rewrite Z2Nat.id in HB by lia. rewrite forallb_forall in HB.
  destruct (in_block m q P) as [|r l] eqn:EB; [cbn in C; lia|].
  assert (X : In r (in_block m q P)) by (rewrite EB; left; auto). apply in_block_in in X as [X1 X2].
  specialize (HB r X1). rewrite X2 in HB. unfold lop_b in HB. rewrite EB in HB.
  destruct (Z.ltb_spec max (Z.of_nat (List.length (nodup Z.eq_dec (r :: l))))) as [_|Y]; [|lia].
  destruct H as [H|H]; rewrite H in HB; cbn in HB; rewrite ?Bool.orb_true_r in HB; discriminate.
Qed.
(** twenty-four keys, six in each quarter of the first top bucket, in turn *)
Definition quarters : list (string * Z) := map (fun i => (str i, Z.of_nat (i mod 4) * 2 ^ 58 + Z.of_nat i * 2 ^ 40)) (seq 1 24).
Example C21_balanced_case :
  let os := fill quarters ++ [get_ (str 7); get_ "none"] in
  Forall store_or_read os /\ no_collision (hpos quarters) os /\ ~ In (2 ^ 64 - 1) (positions (hpos quarters) os) /\
  balanced (hpos quarters) 16 os /\ crowd (hpos quarters) os 0 = 24 /\
  List.length (edump (erun (hpos quarters) (new_emb 16) os)) = 18%nat.
Proof.
  cbv zeta. split; [|split; [|split; [|split; [|split]]]].
  - apply sor_ok. vm_compute. reflexivity.
  - apply nocol_ok. vm_compute. reflexivity.
  - assert (E : existsb (Z.eqb (2 ^ 64 - 1)) (positions (hpos quarters) (fill quarters ++ [get_ (str 7); get_ "none"])) = false) by (vm_compute; reflexivity).
    intros H. rewrite <- Bool.not_true_iff_false in E. apply E, existsb_exists. exists (2 ^ 64 - 1). split; auto.
  - apply bal_ok; [lia|]. vm_compute. reflexivity.
  - vm_compute. reflexivity.
  - vm_compute. reflexivity.
Qed.
Definition sixteen : list (string * Z) := firstn 16 skewed.
Example C21_lopsided_case :
  let os := fill sixteen in let o := set_ (str 17) 17 in
  Forall store_or_read (os ++ [o]) /\ no_collision (hpos skewed) (os ++ [o]) /\
  ~ In (2 ^ 64 - 1) (positions (hpos skewed) (os ++ [o])) /\ balanced (hpos skewed) 16 os /\
  lopsided 16 (positions (hpos skewed) (os ++ [o])) 60 0 /\
  snd (estep (hpos skewed) (erun (hpos skewed) (new_emb 16) (os ++ [o])) (get_ (str 3))) = Div.
Proof.
  cbv zeta. split; [|split; [|split; [|split; [|split]]]].
  - apply sor_ok. vm_compute. reflexivity.
  - apply nocol_ok. vm_compute. reflexivity.
  - assert (E : existsb (Z.eqb (2 ^ 64 - 1)) (positions (hpos skewed) (fill sixteen ++ [set_ (str 17) 17])) = false) by (vm_compute; reflexivity).
    intros H. rewrite <- Bool.not_true_iff_false in E. apply E, existsb_exists. exists (2 ^ 64 - 1). split; auto.
  - apply bal_ok; [lia|]. vm_compute. reflexivity.
  - split; [lia|]. split; [vm_compute; reflexivity|]. left. vm_compute. reflexivity.
  - vm_compute. reflexivity.
Qed.
