(** C77: Range and RangeItem of the default map whose callback calls the map. *)
From Verif Require Import Base BaseProofs Util UtilProofs Bucket TrieProofs TrieInv TrieGrow MapModel ItemProofs
  MapInv MapSplit MapStep MapInit Spec MapRefine MapAny MapSafe MapMore Checks PropMap PropCursor.
From Coq Require Import ZifyBool Sorted.
Local Open Scope Z_scope.
Local Open Scope list_scope.
Local Opaque reverse64 level_of base find_bucket.

(** * Model *)
(** A callback is any terminating program that may call the map: it returns its new state and whether to go on, or makes a
    call and continues with the answer. (A panic of a call is an answer it may recover from.) *)
Inductive body (A : Type) := Done (a : A) (go : bool) | Call (o : op) (k : out -> body A).
Arguments Done {A}. Arguments Call {A}.

(** The item Range stands on is the element number i of the item list. Items never leave the list of a default map without
    pool, and keep their order: a call moves the item on only by putting an element before it. *)
(** an element is put at place p *)
Definition up (p i : nat) : nat := if (p <=? i)%nat then S i else i.
(** the place of the sentinel which the old list does not have (addBucket, map.go:1157-1209) *)
Fixpoint new_head (old l : list entry) : option nat :=
  match l with
  | [] => None
  | e :: l' => if is_dummy e && negb (existsb (fun x => is_dummy x && (e_rev x =? e_rev e)) old) then Some O
               else option_map S (new_head old l')
  end.
Definition over_head (old l : list entry) (i : nat) : nat := match new_head old l with Some p => up p i | None => i end.
(** map.go:329-435 _set: first the item is linked (add2), then perhaps a sentinel (makeBucket) *)
Definition set_at (s : mstate) (k : Z) (n : nid) (e : entry) (i : nat) : nat :=
  match head_z s n with
  | None => i
  | Some zd => match add_item s n zd (t_start (reverse64 k) zd) e with
               | Some z => over_head (unzip z) (m_items (fst (set_ s k n e))) (up (List.length (fst z)) i)
               | None => over_head (m_items s) (m_items (fst (set_ s k n e))) i
               end
  end.
(** only a Set (map.go:591-705) or StoreItem (map.go:708-717) of a key that is not found links anything *)
Definition step_at (h : hashes) (s : mstate) (o : op) (i : nat) : nat :=
  match o with
  | OpSet (KStr str) v =>
      match key_to_hash h (KStr str) with
      | Some (k, c) => match load s k c with
                       | Ret None => let s1 := if negb (m_pool s) && (m_mode s =? CombineSearch4) then set_mpool s true else s in
                                     set_at (set_view s1 KSample) k (find_bucket (m_trie s) (reverse64 k)) (entry_of (mkI KSample (KStr str) v 0 0 false) k c) i
                       | _ => i
                       end
      | None => i
      end
  | OpStore it =>
      match item_hash h it with
      | Some (k, c) => match load s k c with
                       | Ret None => set_at s k (find_bucket (m_trie s) (reverse64 k)) (entry_of it k c) i
                       | _ => i
                       end
      | None => i
      end
  | _ => i
  end.
(** the callback runs while Range stands on element i *)
Fixpoint exec {A} (h : hashes) (s : mstate) (i : nat) (b : body A) : mstate * nat * (A * bool) :=
  match b with
  | Done a go => (s, i, (a, go))
  | Call o k => exec h (fst (step h s o)) (step_at h s o i) (k (snd (step h s o)))
  end.
(** map.go:1617-1641 RangeItem, Range, for at most n items of the list: what the callback was shown, and the end ([None]: it
    still runs). The item after the current one is looked up after the callback has returned. *)
Fixpoint range_at {A} (h : hashes) (f : A -> option gkey -> gval -> body A) (n : nat) (s : mstate) (i : nat) (a : A) :
  list (option gkey * gval) * option (mstate * A) :=
  match n with
  | O => ([], None)
  | S n' =>
      match nth_error (m_items s) i with
      | None => ([], Some (s, a))
      | Some e =>
          if ignored e then range_at h f n' s (S i) a
          else let x := (view_key (m_view s) e, e_val e) in
               let '(s', i', (a', go)) := exec h s i (f a (fst x) (snd x)) in
               if go then let '(l, r) := range_at h f n' s' (S i') a' in (x :: l, r) else ([x], Some (s', a'))
      end
  end.

(** * Specification *)
(** the call took the key p away *)
Definition removes (h : hashes) (p : Z * Z) (o : op) (r : out) : bool :=
  is_delete o && match touches h o with Some q => pair_eqb q p | None => false end && match r with RBool true => true | _ => false end.
(** the callback on the abstract map; whether it took p away at some moment *)
Fixpoint sexec {A} (h : hashes) (p : Z * Z) (m : smap) (b : body A) : smap * bool * (A * bool) :=
  match b with
  | Done a go => (m, false, (a, go))
  | Call o k => let r := snd (sm_step h m o) in
                let '(m', d, x) := sexec h p (fst (sm_step h m o)) (k r) in (m', removes h p o r || d, x)
  end.
(** p is the present key of least position among those at least [from] *)
Definition least (m : smap) (from : Z) (p : Z * Z) (b : binding) : Prop :=
  sm_map m p = Some b /\ from <= at_pos p /\ forall q, sm_map m q <> None -> from <= at_pos q -> q = p \/ at_pos p < at_pos q.
(** What Range does on an abstract map from position [from] on: the keys with what the callback is shown, and the end. *)
Inductive ranges {A} (h : hashes) (f : A -> option gkey -> gval -> body A) :
  smap -> Z -> A -> list ((Z * Z) * (option gkey * gval)) -> option (smap * A) -> Prop :=
| RG_running m from a : ranges h f m from a [] None
| RG_end m from a : (forall p, sm_map m p <> None -> at_pos p < from) -> ranges h f m from a [] (Some (m, a))
| RG_stop m from a p b m' d a' : least m from p b ->
    sexec h p m (f a (bd_view (sm_view m) b) (bd_val b)) = (m', d, (a', false)) ->
    ranges h f m from a [(p, (bd_view (sm_view m) b, bd_val b))] (Some (m', a'))
| RG_go m from a p b m' d a' l r : least m from p b ->
    sexec h p m (f a (bd_view (sm_view m) b) (bd_val b)) = (m', d, (a', true)) ->
    ranges h f m' (if d then at_pos p else at_pos p + 1) a' l r ->
    ranges h f m from a ((p, (bd_view (sm_view m) b, bd_val b)) :: l) r.

(** every call of the callbacks is covered (Spec.covered) at the moment it is made *)
Fixpoint body_covered {A} (h : hashes) (s : mstate) (m : smap) (b : body A) : Prop :=
  match b with
  | Done _ _ => True
  | Call o k => covered h (dump_bucket s) m o /\ body_covered h (fst (step h s o)) (fst (sm_step h m o)) (k (snd (step h s o)))
  end.
Fixpoint range_covered {A} (h : hashes) (f : A -> option gkey -> gval -> body A) (n : nat) (s : mstate) (m : smap) (i : nat) (a : A) : Prop :=
  match n with
  | O => True
  | S n' =>
      match nth_error (m_items s) i with
      | None => True
      | Some e =>
          if ignored e then range_covered h f n' s m (S i) a
          else let b := f a (view_key (m_view s) e) (e_val e) in
               let '(s', i', (a', go)) := exec h s i b in
               let '(m', _, _) := sexec h (0, 0) m b in
               body_covered h s m b /\ (go = true -> range_covered h f n' s' m' (S i') a')
      end
  end.

(** * Proof *)
Local Open Scope nat_scope.
Lemma put_at (y e : entry) L R A B : L ++ R = A ++ e :: B -> (forall x, In x R -> (e_rev y < e_rev x)%Z) ->
  exists A' B', L ++ y :: R = A' ++ e :: B' /\ List.length A' = up (List.length L) (List.length A) /\
    (forall x, In x A' -> In x A \/ (x = y /\ (e_rev y < e_rev e)%Z)).
Proof.
  intros E G. unfold up. destruct (Nat.leb_spec (List.length L) (List.length A)) as [LE|LT].
  - assert (exists A2, A = L ++ A2 /\ R = A2 ++ e :: B) as (A2 & -> & ->).
    { clear G. revert A LE E. induction L as [|x L IH]; intros A LE E; cbn [app] in E.
      - exists A. auto.
      - destruct A as [|z A]; cbn [List.length app] in *; [lia|]. injection E as <- E. destruct (IH A ltac:(lia) E) as (A2 & -> & ->). exists A2. auto. }
    exists (L ++ y :: A2), B. rewrite <- app_assoc. split; auto. rewrite !app_length. cbn [List.length]. split; [lia|].
    intros x X. apply in_app_or in X as [X|[<-|X]]; [left; apply in_or_app; auto| |left; apply in_or_app; auto].
    right. split; auto. apply G. apply in_or_app. right. left. auto.
  - assert (exists B2, L = A ++ e :: B2 /\ B = B2 ++ R) as (B2 & -> & ->).
    { clear G. revert L LT E. induction A as [|z A IH]; intros L LT E; cbn [app] in E.
      - destruct L as [|x L]; cbn [List.length app] in *; [lia|]. injection E as -> <-. exists L. auto.
      - destruct L as [|x L]; cbn [List.length app] in *; [lia|]. injection E as -> E. destruct (IH L ltac:(lia) E) as (B2 & -> & ->). exists B2. auto. }
    exists A, (B2 ++ y :: R). rewrite <- app_assoc. cbn [app]. split; auto.
Qed.
Lemma new_head_same old l : (forall x, In x l -> In x old) -> new_head old l = None.
Proof.
  induction l as [|e l IH]; intros H; cbn [new_head]; auto.
  destruct (is_dummy e && negb _) eqn:D.
  - exfalso. apply andb_true_iff in D as [D1 D2]. apply negb_true_iff in D2.
    assert (existsb (fun x => is_dummy x && (e_rev x =? e_rev e)%Z) old = true); [|congruence].
    apply existsb_exists. exists e. split; [apply H; left; auto|]. rewrite D1, Z.eqb_refl. reflexivity.
  - rewrite IH; auto. intros x X. apply H. right. auto.
Qed.
Lemma new_head_put d old L R : (forall x, In x L -> In x old) -> is_dummy d = true ->
  (forall x, In x old -> is_dummy x = true -> e_rev x <> e_rev d) -> new_head old (L ++ d :: R) = Some (List.length L).
Proof.
  intros H D N. induction L as [|e L IH]; cbn [app new_head List.length].
  - rewrite D. destruct (existsb _ old) eqn:X; cbn [andb negb]; auto. exfalso.
    apply existsb_exists in X as (x & X1 & X2). apply andb_true_iff in X2 as [X2 X3]. apply (N x X1 X2). lia.
  - destruct (is_dummy e && negb _) eqn:Q.
    + exfalso. apply andb_true_iff in Q as [D1 D2]. apply negb_true_iff in D2.
      assert (existsb (fun x => is_dummy x && (e_rev x =? e_rev e)%Z) old = true); [|congruence].
      apply existsb_exists. exists e. split; [apply H; left; auto|]. rewrite D1, Z.eqb_refl. reflexivity.
    + rewrite IH; auto. intros x X. apply H. right. auto.
Qed.
Lemma add_at s n l d r rk y : sinv s -> m_items s = rev l ++ d :: r -> e_dummy d <> None ->
  (e_rev d <= rk)%Z -> (rk <= MAX64)%Z -> (e_rev y <= MAX64 - 2)%Z ->
  forall z, add_item s n (l, d :: r) (t_start rk (l, d :: r)) y = Some z ->
  exists R, snd z = y :: R /\ m_items s = rev (fst z) ++ R /\ forall x, In x R -> (e_rev y < e_rev x)%Z.
Proof.
  intros I Ei Hdd Hdr Hrk Hr z.
  assert (Zd : zip_of (m_items s) (l, d :: r)) by (unfold zip_of; cbn; auto).
  pose proof (sv_sorted _ I) as Srt.
  destruct (t_start_spec _ rk l d r Srt Zd ltac:(lia)) as (Zs & Ls & Rs).
  set (zs := t_start rk (l, d :: r)) in *. clearbody zs.
  destruct (suffix_has_max s (rev l) d r I Ei) as (w & Hw & Rw); [congruence|].
  unfold add_item. destruct (find_gt (e_rev y) (fst zs) (snd zs)) as [z0|] eqn:F.
  - intros C. assert (Zz : zip_of (m_items s) z0) by (eapply zip_of_find_gt; eauto).
    destruct (find_gt_spec _ _ _ _ F) as (mid & x & r' & E2 & Ez & Hx & Fm).
    apply checked_insert_some in C as (-> & _ & Hl). subst z0. cbn [fst snd] in *. exists (x :: r'). split; auto.
    unfold zip_of in Zz. cbn [fst snd] in Zz. split; auto.
    rewrite <- Zz in Srt. apply sorted_app in Srt as (_ & S2 & _). inversion S2 as [|? ? _ FF]; subst. rewrite Forall_forall in FF.
    intros q [<-|Q]; [lia|]. specialize (FF q Q). unfold rle in FF. lia.
  - exfalso. pose proof (find_gt_none _ _ _ F w (Rs w Hw ltac:(lia))). lia.
Qed.
Lemma dummy_put items items' e A B : rsorted items -> items = A ++ e :: B -> (items' = items \/ new_dummy items items') ->
  exists A' B', items' = A' ++ e :: B' /\ List.length A' = over_head items items' (List.length A) /\
    forall x, In x A' -> In x A \/ live x = false.
Proof.
  intros Srt E [->|(n & rv & -> & ND)].
  - exists A, B. unfold over_head. rewrite new_head_same by auto. auto.
  - destruct (ins_sorted_split (dummy_of n rv) items Srt) as (L & R & EL & -> & F1 & F2). rewrite Forall_forall in *.
    unfold over_head. rewrite (new_head_put (dummy_of n rv) items L R).
    + destruct (put_at (dummy_of n rv) e L R A B ltac:(congruence) F2) as (A' & B' & P1 & P2 & P3). exists A', B'. split; auto. split; auto.
      intros x X. destruct (P3 x X) as [?|[-> _]]; auto.
    + intros x X. rewrite EL. apply in_or_app. auto.
    + reflexivity.
    + exact ND.
Qed.
Lemma set_cursor s k n y A e B : sinv s -> present (m_trie s) n -> (brev (m_trie s) n <= reverse64 k)%Z ->
  e_dummy y = None -> (0 <= e_rev y <= MAX64 - 2)%Z -> m_items s = A ++ e :: B ->
  exists A' B', m_items (fst (set_ s k n y)) = A' ++ e :: B' /\ List.length A' = set_at s k n y (List.length A) /\
    forall x, In x A' -> In x A \/ live x = false \/ (e_rev x < e_rev e)%Z.
Proof.
  intros I Hp Hn Hd Hr E.
  destruct (head_z_some s n I Hp) as (l & d & r & HZ & Ei & Hdd & Hdr).
  pose proof (reverse64_range k) as Hrk. rewrite W64_val in Hrk.
  pose proof (add_at s n l d r (reverse64 k) y I Ei ltac:(congruence) ltac:(lia) ltac:(rewrite MAX64_val; lia) ltac:(lia)) as HB.
  pose proof (add_item_spec s n l d r (reverse64 k) y I Ei ltac:(congruence) ltac:(lia) ltac:(rewrite MAX64_val; lia) Hd Hr) as HA.
  unfold set_at. unfold set_. rewrite HZ.
  assert (T : forall items1 er A1 B1, sinv (set_items s items1) -> (0 <= er <= MAX64 - 2)%Z -> items1 = A1 ++ e :: B1 ->
    let s1 := set_len (set_items s items1) (m_len s + 1)%Z in
    let s2 := if (0 <? lvl (m_trie s1) n)%Z then set_trie s1 (tupd (m_trie s1) n (fun b => set_blen b (b_len b + 1)%Z)) else s1 in
    let s3 := fst (if (m_max s2 <? b_len (bget (m_trie s2) n))%Z then make_bucket s2 er else (s2, false)) in
    exists A' B', m_items s3 = A' ++ e :: B' /\ List.length A' = over_head items1 (m_items s3) (List.length A1) /\
      forall x, In x A' -> In x A1 \/ live x = false).
  { intros items1 er A1 B1 I1 Her E1 s1 s2 s3.
    assert (I2 : sinv s2 /\ m_items s2 = items1).
    { unfold s2. destruct (0 <? _)%Z; [split; [|reflexivity]|split; [apply sinv_len; auto|reflexivity]].
      apply sinv_shape; [apply sinv_len; auto|]. apply same_shape_tupd. intros; reflexivity. }
    clearbody s2. destruct I2 as [I2 E2]. apply (dummy_put items1 (m_items s3) e A1 B1); auto.
    - pose proof (sv_sorted _ I2) as Q. rewrite E2 in Q. exact Q.
    - unfold s3. destruct (_ <? _)%Z; [|left; auto]. destruct (make_bucket_spec s2 er I2 Her) as (s' & -> & _ & _ & HX). cbn [fst]. rewrite E2 in HX. exact HX. }
  destruct (add_item s n (l, d :: r) (t_start (reverse64 k) (l, d :: r)) y) as [z|].
  - destruct HA as [HU HE]. destruct (HB z eq_refl) as (R & Z1 & Z2 & Z3).
    assert (UE : unzip z = rev (fst z) ++ y :: R). { destruct z as [zl zr]. rewrite unzip_eq. cbn [fst snd] in *. rewrite Z1. reflexivity. }
    destruct (put_at y e (rev (fst z)) R A B ltac:(congruence) Z3) as (A1 & B1 & P1 & P2 & P3).
    destruct (T (unzip z) (match fst z with p :: _ => e_rev p | [] => 0%Z end) A1 B1) as (A' & B' & Q1 & Q2 & Q3); auto.
    { rewrite HU. apply sinv_ins_item; auto. } { congruence. }
    exists A', B'. split; [exact Q1|]. split; [rewrite Q2, P2, rev_length; reflexivity|].
    intros x X. destruct (Q3 x X) as [Y|Y]; auto. destruct (P3 x Y) as [?|[-> ?]]; auto.
  - destruct (T (m_items s) (e_rev y) A B) as (A' & B' & Q1 & Q2 & Q3); auto.
    { destruct s; exact I. }
    exists A', B'. split; [exact Q1|]. split; [exact Q2|]. intros x X. destruct (Q3 x X); auto.
Qed.
Local Open Scope Z_scope.
Lemma rev_in s e : sinv s -> In e (m_items s) -> reverse64 (reverse64 (e_rev e)) = e_rev e.
Proof. intros I H. apply reverse64_involutive. pose proof (sv_rev_range s e I H). rewrite MAX64_val in *. rewrite W64_val. lia. Qed.
(** there is one present item at a position *)
Lemma one_live s m A e B : holds s m -> m_items s = A ++ e :: B -> live e = true ->
  (forall x, In x A -> live x = true -> e_rev x <> e_rev e) /\ (forall x, In x B -> live x = true -> e_rev x <> e_rev e).
Proof.
  intros H E Le. assert (He : In e (m_items s)) by (rewrite E; apply in_or_app; right; left; auto).
  destruct (hd_at _ _ H (reverse64 (e_rev e)) (reverse64_range _)) as [_ SL]. rewrite (rev_in s e (hd_inv _ _ H) He) in SL.
  rewrite E, live_at_app in SL. change (e :: B) with ([e] ++ B) in SL. rewrite (live_at_app _ [e] B) in SL.
  assert (X : live_at (e_rev e) [e] = [e]). { unfold live_at. cbn [filter]. unfold at_rv. rewrite Le, Z.eqb_refl. reflexivity. }
  rewrite X in SL.
  destruct (live_at (e_rev e) A) as [|u qa] eqn:EA; destruct (live_at (e_rev e) B) as [|w qb] eqn:EB; cbn [app] in SL.
  - split; intros x X1 X2 X3.
    + assert (Y : In x (live_at (e_rev e) A)) by (apply live_at_in; auto). rewrite EA in Y. destruct Y.
    + assert (Y : In x (live_at (e_rev e) B)) by (apply live_at_in; auto). rewrite EB in Y. destruct Y.
  - destruct SL.
  - destruct qa; destruct SL.
  - destruct qa; destruct SL.
Qed.
(** replacing the item x by x' *)
Lemma split_swap {T} (x x' e : T) : forall L R A B, L ++ x :: R = A ++ e :: B ->
  (x = e /\ L = A /\ R = B) \/
  ((In x A \/ In x B) /\ exists A' B', L ++ x' :: R = A' ++ e :: B' /\ List.length A' = List.length A /\ (forall z, In z A' -> In z A \/ (z = x' /\ In x A))).
Proof.
  induction L as [|u L IH]; intros R [|w A] B E; cbn [app] in E; injection E as E1 E2.
  - left. auto.
  - right. subst w R. split; [left; left; auto|]. exists (x' :: A), B. cbn [app List.length]. split; auto. split; auto. intros z [<-|Z]; [right; split; auto; left; auto|]. left. right. auto.
  - right. subst u B. split; [right; apply in_or_app; right; left; auto|]. exists [], (L ++ x' :: R). cbn [app List.length]. split; auto.
  - subst u. destruct (IH R A B E2) as [(H2 & H3 & H4)|(H0 & A' & B' & H1 & H2 & H3)].
    + left. subst. auto.
    + right. split; [destruct H0; [left; right; auto|right; auto]|]. exists (w :: A'), B'. cbn [app List.length]. rewrite H1, H2. split; auto. split; auto.
      intros z [<-|Z]; [left; left; auto|]. destruct (H3 z Z) as [?|[? ?]]; [left; right; auto|right; split; auto; right; auto].
Qed.
Definition off (A : list entry) (rv : Z) : Prop := forall x, In x A -> live x = true -> e_rev x <> rv.
Definition code (e : entry) : Z * Z := (reverse64 (e_rev e), e_conf e).
Lemma swap_cursor s m x x' e L R A B : holds s m -> m_items s = L ++ x :: R -> m_items s = A ++ e :: B -> live x = true -> e_rev x' = e_rev x -> e_conf x' = e_conf x -> off A (e_rev e) ->
  exists A' e' B', L ++ x' :: R = A' ++ e' :: B' /\ List.length A' = List.length A /\ e_rev e' = e_rev e /\ e_conf e' = e_conf e /\ off A' (e_rev e) /\
    ((x = e /\ e' = x') \/ (e' = e /\ (live e = true -> code x <> code e))).
Proof.
  intros H E1 E2 LX RX CX OF. destruct (split_swap x x' e L R A B ltac:(congruence)) as [(-> & -> & ->)|(H0 & A' & B' & H1 & H2 & H3)].
  - exists A, x', B. auto 10.
  - exists A', e, B'. split; auto. split; auto. split; auto. split; auto. split.
    + intros z Z1 Z2. destruct (H3 z Z1) as [Z3|[-> Z3]]; [apply OF; auto|]. rewrite RX. apply OF; auto.
    + right. split; auto. intros LE C. destruct (one_live s m A e B H E2 LE) as [O1 O2].
      assert (RE : e_rev x = e_rev e).
      { unfold code in C. apply (f_equal fst) in C. cbn [fst] in C. apply (f_equal reverse64) in C.
        rewrite (rev_in s x (hd_inv _ _ H)) in C by (rewrite E1; apply in_or_app; right; left; auto).
        rewrite (rev_in s e (hd_inv _ _ H)) in C by (rewrite E2; apply in_or_app; right; left; auto). exact C. }
      destruct H0 as [H0|H0]; [apply (O1 x H0 LX RE)|apply (O2 x H0 LX RE)].
Qed.
Lemma pair_ok p q : pair_eqb p q = true <-> p = q.
Proof. destruct p, q. unfold pair_eqb. cbn [fst snd]. rewrite andb_true_iff, !Z.eqb_eq. split; [intros [-> ->]; reflexivity|intros E; injection E; auto]. Qed.
Definition followed (h : hashes) (s : mstate) (o : op) (A : list entry) (e : entry) : Prop :=
  exists A' e' B', m_items (fst (step h s o)) = A' ++ e' :: B' /\ List.length A' = step_at h s o (List.length A) /\ e_rev e' = e_rev e /\ e_conf e' = e_conf e /\
    off A' (e_rev e) /\ live e' = live e && negb (removes h (code e) o (snd (step h s o))) /\
    (e' = e \/ (live e = true /\ (e' = del_entry (m_view s) e \/ exists v, e' = set_e_val e v))).
Lemma followed_same h s o A e B : m_items s = A ++ e :: B -> off A (e_rev e) -> m_items (fst (step h s o)) = m_items s -> step_at h s o (List.length A) = List.length A ->
  removes h (code e) o (snd (step h s o)) = false -> followed h s o A e.
Proof. intros E O1 E2 E3 E4. exists A, e, B. rewrite E2, E3, E4, andb_true_r. auto 10. Qed.
Lemma followed_update h s m o A e B k c v l x r : holds s m -> m_items s = A ++ e :: B -> off A (e_rev e) -> is_delete o = false ->
  load s k c = Ret (Some (l, x :: r)) -> step h s o = update s (l, x :: r) v -> step_at h s o (List.length A) = List.length A -> followed h s o A e.
Proof.
  intros H E OF ID L ST AT. pose proof (load_hit _ _ _ _ L) as (l1 & x1 & r1 & Ez & Ei & HL & HR & HC). injection Ez as -> -> ->.
  assert (RM : forall r0, removes h (code e) o r0 = false) by (intros r0; unfold removes; rewrite ID; reflexivity).
  rewrite update_eq in ST. destruct (assign _ _ _) as [[v' ok]|].
  - destruct (swap_cursor s m x1 (set_e_val x1 v') e (rev l1) r1 A B H Ei E HL eq_refl eq_refl OF) as (A' & e' & B' & S1 & S2 & S3 & S4 & S5 & S6).
    exists A', e', B'. rewrite ST, RM, AT, andb_true_r. cbn [fst set_items m_items]. split; auto. split; auto. split; auto. split; auto. split; auto. split.
    + destruct S6 as [[-> ->]|[-> _]]; reflexivity.
    + destruct S6 as [[<- ->]|[-> _]]; auto. right. split; eauto.
  - apply (followed_same h s o A e B); auto. rewrite ST. reflexivity.
Qed.
Lemma followed_set h s0 s o A e B k c i : sinv s0 -> m_items s0 = A ++ e :: B -> m_trie s0 = m_trie s -> sinv s -> off A (e_rev e) -> is_delete o = false ->
  0 <= k < W64 -> k <> 2 ^ 63 - 1 -> k <> 2 ^ 64 - 1 -> i_rev i = 0 ->
  fst (step h s o) = fst (set_ s0 k (find_bucket (m_trie s) (reverse64 k)) (entry_of i k c)) ->
  step_at h s o (List.length A) = set_at s0 k (find_bucket (m_trie s) (reverse64 k)) (entry_of i k c) (List.length A) -> followed h s o A e.
Proof.
  intros I0 E Et I OF ID Hk K1 K2 IR ST AT. pose proof (storable_rev k Hk K1 K2) as SR.
  destruct (find_bucket_present s (reverse64 k) I ltac:(apply reverse64_range)) as [P1 P2].
  assert (Er : e_rev (entry_of i k c) = reverse64 k) by (cbn [entry_of e_rev]; rewrite IR; reflexivity).
  destruct (set_cursor s0 k (find_bucket (m_trie s) (reverse64 k)) (entry_of i k c) A e B) as (A' & B' & S1 & S2 & S3); auto.
  { rewrite Et. auto. } { rewrite Et. auto. } { rewrite Er. exact SR. }
  exists A', e, B'. rewrite ST, AT. split; auto. split; auto. split; auto. split; auto. split.
  - intros x X1 X2. destruct (S3 x X1) as [Y|[Y|Y]]; [apply OF; auto|congruence|lia].
  - unfold removes. rewrite ID. cbn [andb negb]. rewrite andb_true_r. auto.
Qed.
Lemma step_cursor h s m o A e B : holds s m -> covered h (dump_bucket s) m o -> m_items s = A ++ e :: B -> off A (e_rev e) -> followed h s o A e.
Proof.
  intros H Cov E OF. pose proof (hd_inv _ _ H) as I.
  assert (RO : is_delete o = false -> m_items (fst (step h s o)) = m_items s -> step_at h s o (List.length A) = List.length A -> followed h s o A e).
  { intros ID E2 E3. apply (followed_same h s o A e B); auto. unfold removes; rewrite ID; reflexivity. }
  assert (DE : forall key, (o = OpDelete key \/ o = OpPurge key) -> followed h s o A e).
  { intros key Ho. assert (ST : step h s o = delete h s key) by (destruct Ho; subst; reflexivity).
    assert (AT : step_at h s o (List.length A) = List.length A) by (destruct Ho; subst; reflexivity).
    assert (RM : forall r, removes h (code e) o r = match key_to_hash h key with Some q => pair_eqb q (code e) | None => false end && match r with RBool true => true | _ => false end)
      by (intros r; destruct Ho; subst; reflexivity).
    unfold delete in ST. destruct (key_to_hash h key) as [[k c]|] eqn:K; [|apply (followed_same h s o A e B); auto; [rewrite ST; reflexivity|apply RM]].
    destruct (key_range _ _ _ _ K) as [Hk _].
    destruct (load_spec s k c I) as (z & L & F). rewrite L in ST. destruct z as [z|].
    - pose proof (load_hit _ _ _ _ L) as (l & x & r & -> & Ei & HL & HR & HC). rewrite upd_cur_eq in ST.
      destruct (swap_cursor s m x (del_entry (m_view s) x) e (rev l) r A B H Ei E HL eq_refl eq_refl OF) as (A' & e' & B' & S1 & S2 & S3 & S4 & S5 & S6).
      exists A', e', B'. rewrite ST, AT, RM. cbn [fst snd set_items m_items]. split; auto. split; auto. split; auto. split; auto. split; auto. rewrite andb_true_r.
      assert (CX : (k, c) = code x) by (unfold code; rewrite HR, HC, reverse64_involutive by exact Hk; reflexivity).
      split; [|destruct S6 as [[<- ->]|[-> _]]; auto].
      destruct S6 as [[<- ->]|[-> NE]].
      + rewrite (proj2 (pair_ok (k, c) (code x)) CX). cbn [negb]. rewrite andb_false_r. unfold live, ignored, del_entry. cbn [e_dummy e_del]. destruct (e_dummy x); reflexivity.
      + destruct (live e); auto. cbn [andb]. destruct (pair_eqb (k, c) (code e)) eqn:PE; auto. apply pair_ok in PE. exfalso. apply NE; auto. congruence.
    - apply (followed_same h s o A e B); auto; [rewrite ST; reflexivity|]. rewrite RM, ST. cbn [snd]. apply andb_false_r. }
  destruct o as [key v|i|key|k c|key|k c|key|key|].
  - destruct (key_to_hash h key) as [[k c]|] eqn:K.
    2: { apply RO; auto; [cbn [step]; unfold set; rewrite K; reflexivity|cbn [step_at]; destruct key; auto; rewrite K; auto]. }
    destruct (key_range _ _ _ _ K) as [Hk _].
    destruct (load_spec s k c I) as (z & L & F).
    pose proof (lookup_slot s m k c z H Hk F) as LS.
    destruct z as [z|].
    + destruct (load_hit _ _ _ _ L) as (l & x & r & -> & _). apply (followed_update h s m _ A e B k c v l x r); auto.
      * cbn [step]. unfold set. rewrite K, L. reflexivity.
      * cbn [step_at]. destruct key; auto. rewrite K, L. reflexivity.
    + set (s1 := if negb (m_pool s) && (m_mode s =? CombineSearch4) then set_mpool s true else s).
      assert (H1 : sinv s1 /\ m_items s1 = m_items s /\ m_trie s1 = m_trie s).
      { unfold s1. destruct (negb (m_pool s) && _); auto. split; auto. apply sinv_mpool; auto. }
      assert (NS : (forall str, key <> KStr str) -> followed h s (OpSet key v) A e).
      { intros N. apply RO; auto.
        - cbn [step]. unfold set. rewrite K, L. fold s1. destruct key; try (cbn [fst]; apply H1). exfalso. eapply N. reflexivity.
        - destruct key; try reflexivity. exfalso. eapply N. reflexivity. }
      destruct key as [| |str| | | | | | |]; try (apply NS; discriminate).
      destruct Cov as [_ Cov]. cbn [writes] in Cov. rewrite K in Cov.
      assert (EM : sm_map m (k, c) = None). { destruct (sm_map m (k, c)) as [b|]; auto. destruct LS as (? & ? & ? & X & _). discriminate X. }
      destruct Cov as [Cov|(C1 & C2 & C3 & C4)]; [congruence|].
      destruct H1 as (H1 & H2 & H3).
      apply (followed_set h (set_view s1 KSample) s _ A e B k c (mkI KSample (KStr str) v 0 0 false)); auto.
      * apply sinv_view; auto.
      * cbn [set_view m_items]. congruence.
      * cbn [step]. unfold set. rewrite K, L. fold s1. cbv zeta. destruct (set_ _ _ _ _) as [s3 p]. reflexivity.
      * cbn [step_at]. rewrite K, L. reflexivity.
  - destruct (key_to_hash h (i_key i)) as [[k c]|] eqn:K.
    2: { apply RO; auto; [cbn [step]; unfold store, item_hash; rewrite K; reflexivity|cbn [step_at]; unfold item_hash; rewrite K; auto]. }
    destruct (key_range _ _ _ _ K) as [Hk _].
    destruct (load_spec s k c I) as (z & L & F).
    pose proof (lookup_slot s m k c z H Hk F) as LS.
    destruct z as [z|].
    + destruct (load_hit _ _ _ _ L) as (l & x & r & -> & _). apply (followed_update h s m _ A e B k c (i_val i) l x r); auto.
      * cbn [step]. unfold store, item_hash. rewrite K, L. reflexivity.
      * cbn [step_at]. unfold item_hash. rewrite K, L. reflexivity.
    + destruct Cov as [Fr Cov]. cbn [fresh_item] in Fr. destruct Fr as (F1 & F2 & F3). cbn [writes] in Cov. rewrite K in Cov.
      assert (EM : sm_map m (k, c) = None). { destruct (sm_map m (k, c)) as [b|]; auto. destruct LS as (? & ? & ? & X & _). discriminate X. }
      destruct Cov as [Cov|(C1 & C2 & C3 & C4)]; [congruence|].
      apply (followed_set h s s _ A e B k c i); auto.
      * cbn [step]. unfold store, item_hash. rewrite K, L. destruct (set_ _ _ _ _) as [s3 p]. reflexivity.
      * cbn [step_at]. unfold item_hash. rewrite K, L. reflexivity.
  - apply RO; auto. cbn [step]. unfold with_key. destruct (key_to_hash h key) as [[k c]|]; auto. rewrite (proj1 (get_val_same s (get s k c))). reflexivity.
  - apply RO; auto. cbn [step]. rewrite (proj1 (get_val_same s _)). reflexivity.
  - apply RO; auto. cbn [step]. unfold with_key. destruct (key_to_hash h key) as [[k c]|]; auto. rewrite (proj1 (get_item_same s (load s k c))). reflexivity.
  - apply RO; auto. cbn [step]. rewrite (proj1 (get_item_same s _)). reflexivity.
  - apply (DE key); auto.
  - apply (DE key); auto.
  - apply RO; auto.
Qed.
Lemma sexec_any {A} h p q (b : body A) : forall m, fst (fst (sexec h p m b)) = fst (fst (sexec h q m b)) /\ snd (sexec h p m b) = snd (sexec h q m b).
Proof.
  induction b as [a go|o k IH]; intros m; cbn [sexec]; auto. cbv zeta. destruct (IH (snd (sm_step h m o)) (fst (sm_step h m o))) as [I1 I2].
  destruct (sexec h p _ _) as [[m1 d1] x1]. destruct (sexec h q _ _) as [[m2 d2] x2]. cbn [fst snd] in *. auto.
Qed.
Lemma exec_cursor {A} h (b : body A) : forall s m L e R, holds s m -> body_covered h s m b -> m_items s = L ++ e :: R -> off L (e_rev e) ->
  forall s' i' x m' d x', exec h s (List.length L) b = (s', i', x) -> sexec h (code e) m b = (m', d, x') ->
  x = x' /\ holds s' m' /\ exists L' e' R', m_items s' = L' ++ e' :: R' /\ List.length L' = i' /\ e_rev e' = e_rev e /\ off L' (e_rev e) /\ live e' = live e && negb d.
Proof.
  induction b as [a go|o k IH]; intros s m L e R H C E OF s' i' x m' d x' EX SX; cbn [exec sexec body_covered] in *.
  - injection EX as <- <- <-. injection SX as <- <- <-. split; auto. split; auto. exists L, e, R. rewrite andb_true_r. auto 10.
  - destruct C as [C1 C2]. destruct (step_ok h s m o H C1) as [H1 E1]. cbv zeta in SX. rewrite E1 in *.
    destruct (step_cursor h s m o L e R H C1 E OF) as (L1 & e1 & R1 & Q1 & Q2 & Q3 & Q4 & Q5 & Q6 & _). rewrite <- Q2 in EX.
    assert (CE : code e1 = code e) by (unfold code; rewrite Q3, Q4; reflexivity). rewrite <- CE in SX.
    destruct (sexec h (code e1) (fst (sm_step h m o)) (k (snd (sm_step h m o)))) as [[m2 d2] x2] eqn:S2.
    injection SX as <- <- <-.
    rewrite <- Q3 in Q5.
    destruct (IH _ _ _ L1 e1 R1 H1 C2 Q1 Q5 _ _ _ _ _ _ EX S2) as (X1 & X2 & L' & e' & R' & Y1 & Y2 & Y3 & Y4 & Y5).
    split; auto. split; auto. exists L', e', R'. split; auto. split; auto. split; [congruence|]. split; [rewrite <- Q3; auto|].
    rewrite Y5, Q6, E1, CE. rewrite negb_orb, andb_assoc. reflexivity.
Qed.
Lemma code_bound s m e : holds s m -> In e (m_items s) -> live e = true -> sm_map m (code e) = Some (bd_of e).
Proof.
  intros H He Le. destruct (hd_at _ _ H (reverse64 (e_rev e)) (reverse64_range _)) as [_ SL]. rewrite (rev_in s e (hd_inv _ _ H) He) in SL.
  assert (Hin : In e (live_at (e_rev e) (m_items s))) by (apply live_at_in; auto).
  destruct (live_at (e_rev e) (m_items s)) as [|x [|y q]]; [destruct Hin| |destruct SL]. destruct Hin as [->|[]]. apply SL.
Qed.
Lemma bound_code s m p : holds s m -> ranged_map m -> sm_map m p <> None -> exists e, In e (m_items s) /\ live e = true /\ code e = p /\ at_pos p = e_rev e.
Proof.
  intros H RM N. destruct p as [k c]. destruct (hd_at _ _ H k (RM k c N)) as [_ SL].
  destruct (live_at (reverse64 k) (m_items s)) as [|x [|y q]] eqn:EL; [exfalso; apply N; apply SL| |destruct SL].
  assert (Hx : In x (live_at (reverse64 k) (m_items s))) by (rewrite EL; left; auto).
  apply live_at_in in Hx as (Hx & HL & Hr). exists x. split; auto. split; auto. split; [|symmetry; exact Hr].
  unfold code. rewrite Hr, reverse64_involutive by apply (RM k c N). f_equal. destruct (Z.eq_dec c (e_conf x)) as [|NE]; auto. exfalso. apply N. apply SL. auto.
Qed.
Lemma sexec_ranged {A} h p (b : body A) : forall m, ranged_map m -> ranged_map (fst (fst (sexec h p m b))).
Proof.
  induction b as [a go|o k IH]; intros m RM; cbn [sexec fst]; auto. cbv zeta. specialize (IH (snd (sm_step h m o)) (fst (sm_step h m o)) (sm_ranged h [o] m RM)).
  destruct (sexec h p _ _) as [[m1 d1] x1]. exact IH.
Qed.
(** Range stands before element i; the present items of position at least [from] are those to come *)
Definition standing (s : mstate) (m : smap) (i : nat) (from : Z) : Prop :=
  holds s m /\ ranged_map m /\ exists L R, m_items s = L ++ R /\ List.length L = i /\
    (forall x, In x L -> live x = true -> e_rev x < from) /\ (forall x, In x R -> live x = true -> from <= e_rev x).
Lemma stands_next {A} h (f : A -> option gkey -> gval -> body A) s m i from a e : standing s m i from -> nth_error (m_items s) i = Some e -> ignored e = false ->
  body_covered h s m (f a (view_key (m_view s) e) (e_val e)) ->
  forall s' i' x m' d x', exec h s i (f a (view_key (m_view s) e) (e_val e)) = (s', i', x) -> sexec h (code e) m (f a (view_key (m_view s) e) (e_val e)) = (m', d, x') ->
  x = x' /\ least m from (code e) (bd_of e) /\ at_pos (code e) = e_rev e /\ view_key (m_view s) e = bd_view (sm_view m) (bd_of e) /\
  standing s' m' (S i') (if d then at_pos (code e) else at_pos (code e) + 1).
Proof.
  intros (H & RM & L & R & E & EL & HL & HR) N IG C1 s' i' x m' d x' EX SX.
  destruct R as [|e0 R]; [exfalso; rewrite app_nil_r in E; assert (nth_error (m_items s) i = None) by (apply nth_error_None; rewrite E; lia); congruence|].
  assert (e0 = e). { rewrite E, nth_error_app2 in N by lia. replace (i - List.length L)%nat with O in N by lia. cbn [nth_error] in N. congruence. } subst e0.
  pose proof (sv_sorted _ (hd_inv _ _ H)) as Srt.
  assert (HE : In e (m_items s)) by (rewrite E; apply in_or_app; right; left; auto).
  assert (LE : live e = true) by (unfold live; rewrite IG; reflexivity).
  assert (SB : sm_map m (code e) = Some (bd_of e)) by (apply (code_bound s m e); auto).
  assert (AP : at_pos (code e) = e_rev e) by (unfold at_pos, code; cbn [fst]; apply (rev_in s e (hd_inv _ _ H) HE)).
  assert (LS : least m from (code e) (bd_of e)).
  { split; auto. rewrite AP. split; [apply HR; auto; left; auto|]. intros q Q1 Q2. destruct (bound_code s m q H RM Q1) as (y & X1 & X2 & X4 & X3).
    rewrite X3 in *. rewrite E in X1. apply in_app_or in X1 as [X1|[<-|X1]]; [specialize (HL y X1 X2); lia|left; auto|].
    rewrite E in Srt. destruct (sorted_around _ _ _ _ Srt) as [_ S2]. specialize (S2 y X1). unfold rle in S2. destruct (one_live s m L e R H E LE) as [_ O2]. pose proof (O2 y X1 X2). right. lia. }
  pose proof (sexec_ranged h (code e) (f a (view_key (m_view s) e) (e_val e)) m RM) as RM'. rewrite SX in RM'. cbn [fst] in RM'.
  destruct (one_live s m L e R H E LE) as [O1 O2]. rewrite <- EL in EX.
  destruct (exec_cursor h _ s m L e R H C1 E O1 _ _ _ _ _ _ EX SX) as (XX & H' & L' & e' & R' & Y1 & Y2 & Y3 & Y4 & Y5).
  rewrite LE in Y5. cbn [andb] in Y5. pose proof (sv_sorted _ (hd_inv _ _ H')) as Srt'. rewrite Y1 in Srt'.
  destruct (sorted_around _ _ _ _ Srt') as [Z1 Z2]. unfold rle in Z1, Z2.
  split; auto. split; auto. split; auto. split; [rewrite (hd_view _ _ H); reflexivity|].
  split; auto. split; auto. exists (L' ++ [e']), R'. rewrite <- app_assoc. split; auto. rewrite app_length. cbn [List.length]. split; [lia|]. rewrite AP. destruct d.
  - split.
    + intros y X1 X2. apply in_app_or in X1 as [X1|[<-|[]]]; [|rewrite Y5 in X2; discriminate X2]. specialize (Z1 y X1). pose proof (Y4 y X1 X2). lia.
    + intros y X1 X2. specialize (Z2 y X1). lia.
  - split.
    + intros y X1 X2. apply in_app_or in X1 as [X1|[<-|[]]]; [specialize (Z1 y X1)|]; lia.
    + intros y X1 X2. specialize (Z2 y X1). destruct (one_live s' m' L' e' R' H' Y1 Y5) as [_ O2']. pose proof (O2' y X1 X2). lia.
Qed.
Lemma stands_skip s m i from e : standing s m i from -> nth_error (m_items s) i = Some e -> ignored e = true -> standing s m (S i) from.
Proof.
  intros (H & RM & L & R & E & EL & HL & HR) N IG.
  destruct R as [|e0 R]; [exfalso; rewrite app_nil_r in E; assert (nth_error (m_items s) i = None) by (apply nth_error_None; rewrite E; lia); congruence|].
  assert (e0 = e). { rewrite E, nth_error_app2 in N by lia. replace (i - List.length L)%nat with O in N by lia. cbn [nth_error] in N. congruence. } subst e0.
  split; auto. split; auto. exists (L ++ [e]), R. rewrite <- app_assoc. split; auto. rewrite app_length. cbn [List.length]. split; [lia|]. split.
  - intros x X1 X2. apply in_app_or in X1 as [X1|[<-|[]]]; auto. unfold live in X2. rewrite IG in X2. discriminate X2.
  - intros x X1 X2. apply HR; auto. right. auto.
Qed.
Lemma stands_end s m i from : standing s m i from -> nth_error (m_items s) i = None -> forall p, sm_map m p <> None -> at_pos p < from.
Proof.
  intros (H & RM & L & R & E & EL & HL & HR) N p P. apply nth_error_None in N. rewrite E, app_length in N.
  assert (R = []) by (destruct R; auto; cbn [List.length] in N; lia). subst R. rewrite app_nil_r in E.
  destruct (bound_code s m p H RM P) as (x & X1 & X2 & _ & ->). apply HL; auto. rewrite <- E. auto.
Qed.
Lemma range_law {A} h (f : A -> option gkey -> gval -> body A) n : forall s m i from a, standing s m i from -> range_covered h f n s m i a ->
  exists tr r, ranges h f m from a tr r /\ map snd tr = fst (range_at h f n s i a) /\
    match snd (range_at h f n s i a), r with
    | None, None => True
    | Some (s', a'), Some (m', a'') => a'' = a' /\ holds s' m' /\ ranged_map m'
    | _, _ => False
    end.
Proof.
  induction n as [|n IH]; intros s m i from a ST C; cbn [range_at range_covered] in *.
  { exists [], None. cbn [fst snd map]. split; [apply RG_running|auto]. }
  destruct (nth_error (m_items s) i) as [e|] eqn:N.
  2: { exists [], (Some (m, a)). cbn [fst snd map]. split; [apply RG_end; apply (stands_end s m i from ST N)|]. split; auto. split; auto. split; apply ST. }
  destruct (ignored e) eqn:IG; [apply IH; auto; apply (stands_skip s m i from e ST N IG)|].
  cbn [fst snd]. destruct (exec h s i (f a (view_key (m_view s) e) (e_val e))) as [[s' i'] [a' go]] eqn:EX.
  destruct (sexec h (code e) m (f a (view_key (m_view s) e) (e_val e))) as [[m' d] x'] eqn:SX.
  destruct (sexec_any h (0, 0) (code e) (f a (view_key (m_view s) e) (e_val e)) m) as [SA _]. rewrite SX in SA. cbn [fst] in SA.
  destruct (sexec h (0, 0) m (f a (view_key (m_view s) e) (e_val e))) as [[m0 d0] x0]. cbn [fst] in SA. subst m0. destruct C as [C1 C2].
  destruct (stands_next h f s m i from a e ST N IG C1 _ _ _ _ _ _ EX SX) as (<- & LS & AP & VK & ST').
  assert (VV : e_val e = bd_val (bd_of e)) by reflexivity. rewrite VK, VV in SX.
  destruct go.
  - destruct (IH s' m' (S i') _ a' ST' (C2 eq_refl)) as (tr & r & T1 & T2 & T3).
    destruct (range_at h f n s' (S i') a') as [l rr]. cbn [fst snd] in *.
    exists ((code e, (bd_view (sm_view m) (bd_of e), bd_val (bd_of e))) :: tr), r. split; [eapply RG_go; eauto|]. cbn [map snd]. rewrite T2, VK. auto.
  - exists [(code e, (bd_view (sm_view m) (bd_of e), bd_val (bd_of e)))], (Some (m', a')). split; [eapply RG_stop; eauto|]. cbn [fst snd map]. rewrite VK. split; auto. split; auto. split; apply ST'.
Qed.

(** After every covered history, for every callback and any number of items: Range shows the callback, one after another, the
    present key of least position above that of the last shown key, in the map as it is after the last callback; the last
    shown key counts again if its callback deleted it and some key of that hash was stored anew. It ends when there is none,
    or after the first callback that returns false, with the map the callbacks have made. *)
Theorem C77_range_law : forall A h (f : A -> option gkey -> gval -> body A) view max mode os n a,
  mode <> CombineSearch4 -> all_covered h (new_map view max mode false) (sm_empty view) os ->
  let s := run h (new_map view max mode false) os in
  let m := sm_run h (sm_empty view) os in
  range_covered h f n s m 0 a ->
  exists tr r, ranges h f m 0 a tr r /\ map snd tr = fst (range_at h f n s 0 a) /\
    match snd (range_at h f n s 0 a), r with
    | None, None => True
    | Some (s', a'), Some (m', a'') => a'' = a' /\ forall os', all_covered h s' m' os' -> outs h s' os' = sm_outs h m' os'
    | _, _ => False
    end.
Proof.
  intros A h f view max mode os n a _ AC s m RC.
  destruct (run_ok h os _ _ (new_map_holds view max mode false) AC) as [H _]. fold s m in H.
  assert (RM : ranged_map m) by (apply sm_ranged; intros k c X; exfalso; apply X; reflexivity).
  assert (ST : standing s m 0 0).
  { split; auto. split; auto. exists [], (m_items s). split; auto. split; auto. split; [intros ? []|]. intros x X _. pose proof (sv_rev_range s x (hd_inv _ _ H) X). lia. }
  destruct (range_law h f n s m 0 0 a ST RC) as (tr & r & R1 & R2 & R3). exists tr, r. split; auto. split; auto.
  destruct (snd (range_at h f n s 0 a)) as [[s' a']|], r as [[m' a'']|]; auto. destruct R3 as (R3 & R4 & _). split; auto.
  intros os' C'. apply (run_ok h os' s' m' R4 C').
Qed.
Print Assumptions C77_range_law.

(** ** What follows from the law *)
(** the callback brings no key at the hash of the shown key into the map after deleting the shown key *)
Definition no_revival {A} (h : hashes) (f : A -> option gkey -> gval -> body A) : Prop := forall a m p b m' d x,
  sm_map m p = Some b -> (forall c, sm_map m (fst p, c) <> None -> c = snd p) ->
  sexec h p m (f a (bd_view (sm_view m) b) (bd_val b)) = (m', d, x) -> d = true -> forall c, sm_map m' (fst p, c) = None.
Lemma ranges_from {A} h (f : A -> option gkey -> gval -> body A) m from a tr r : ranges h f m from a tr r ->
  StronglySorted (fun x y => at_pos (fst x) <= at_pos (fst y)) tr /\ forall x, In x tr -> from <= at_pos (fst x).
Proof.
  induction 1 as [m from a|m from a E|m from a p b m' d a' LS SX|m from a p b m' d a' l r LS SX _ [IH1 IH2]].
  - split; [constructor|intros ? []].
  - split; [constructor|intros ? []].
  - split; [repeat constructor|]. intros x [<-|[]]. apply LS.
  - assert (F : forall x, In x l -> at_pos p <= at_pos (fst x)). { intros x X. specialize (IH2 x X). destruct d; lia. }
    split; [constructor; auto; apply Forall_forall; exact F|]. intros x [<-|X]; [apply LS|]. specialize (F x X). destruct LS as (_ & LS & _). lia.
Qed.
(** Positions never decrease along a Range. *)
Theorem C77_never_back : forall A h (f : A -> option gkey -> gval -> body A) m from a tr r, ranges h f m from a tr r ->
  StronglySorted (fun x y => at_pos (fst x) <= at_pos (fst y)) tr.
Proof. intros. eapply ranges_from; eauto. Qed.
Print Assumptions C77_never_back.

Fixpoint goes_on {A} (b : body A) : Prop := match b with Done _ go => go = true | Call o k => forall r, goes_on (k r) end.
Fixpoint spares {A} (h : hashes) (p : Z * Z) (b : body A) : Prop :=
  match b with Done _ _ => True | Call o k => (is_delete o = true -> touches h o <> Some p) /\ forall r, spares h p (k r) end.
Lemma sexec_goes {A} h p (b : body A) : forall m, goes_on b -> snd (snd (sexec h p m b)) = true.
Proof.
  induction b as [a go|o k IH]; intros m G; cbn [sexec goes_on snd] in *; auto. cbv zeta. specialize (IH (snd (sm_step h m o)) (fst (sm_step h m o)) (G _)).
  destruct (sexec h p _ _) as [[m1 d1] x1]. exact IH.
Qed.
Lemma step_keeps h m o q : sm_map m q <> None -> (is_delete o = true -> touches h o <> Some q) -> sm_map (fst (sm_step h m o)) q <> None.
Proof.
  intros N D. assert (U : forall p b v, sm_map (fst (sm_update m p b v)) q <> None).
  { intros p b v. unfold sm_update. destruct (assign _ _ _) as [[? ?]|]; cbn [fst sm_map]; auto. unfold sm_put. destruct (pair_eqb p q); [discriminate|auto]. }
  assert (PU : forall p b vw c, sm_map (mkSM (sm_put m p (Some b)) vw c) q <> None).
  { intros p b vw c. cbn [sm_map]. unfold sm_put. destruct (pair_eqb p q); [discriminate|auto]. }
  assert (PD : forall key, touches h o = key_to_hash h key -> is_delete o = true ->
    sm_map (fst (match key_to_hash h key with None => (m, RPanic) | Some p => match sm_map m p with Some _ => (mkSM (sm_put m p None) (sm_view m) (sm_created m), RBool true) | None => (m, RBool false) end end)) q <> None).
  { intros key T I. specialize (D I). rewrite T in D. destruct (key_to_hash h key) as [p|]; auto. destruct (sm_map m p); auto. cbn [fst sm_map]. unfold sm_put.
    destruct (pair_eqb p q) eqn:X; auto. apply pair_ok in X. exfalso. apply D. congruence. }
  destruct o; cbn [sm_step fst]; auto.
  - destruct (key_to_hash h key) as [p|]; auto. destruct (sm_map m p); auto. destruct key; cbn [fst]; auto.
  - destruct (key_to_hash h (i_key i)) as [p|]; auto. destruct (sm_map m p); cbn [fst]; auto.
Qed.
Lemma sexec_spares {A} h p q (b : body A) : forall m, spares h q b -> sm_map m q <> None -> sm_map (fst (fst (sexec h p m b))) q <> None.
Proof.
  induction b as [a go|o k IH]; intros m G N; cbn [sexec spares fst] in *; auto. cbv zeta. destruct G as [G1 G2].
  specialize (IH (snd (sm_step h m o)) (fst (sm_step h m o)) (G2 _) (step_keeps h m o q N G1)).
  destruct (sexec h p _ _) as [[m1 d1] x1]. exact IH.
Qed.
(** A key that is in the map when Range begins and is never deleted by the callback is shown, if the callback never stops Range
    and Range has ended. *)
Theorem C77_not_missed : forall A h (f : A -> option gkey -> gval -> body A) m from a tr m' a' p,
  (forall a k v, goes_on (f a k v) /\ spares h p (f a k v)) -> sm_map m p <> None -> from <= at_pos p ->
  ranges h f m from a tr (Some (m', a')) -> In p (map fst tr).
Proof.
  intros A h f m from a tr m' a' p GS N PF R. remember (Some (m', a')) as r eqn:ER.
  induction R as [m from a|m from a E|m from a p1 b m1 d a1 LS SX|m from a p1 b m1 d a1 l r LS SX R IH]; try discriminate.
  - exfalso. specialize (E p N). lia.
  - exfalso. pose proof (sexec_goes h p1 _ m (proj1 (GS a (bd_view (sm_view m) b) (bd_val b)))) as G. rewrite SX in G. discriminate G.
  - pose proof (sexec_spares h p1 p _ m (proj2 (GS a (bd_view (sm_view m) b) (bd_val b))) N) as K. rewrite SX in K. cbn [fst] in K.
    cbn [map fst]. destruct (proj2 (proj2 LS) p N PF) as [->|LE]; [left; auto|right]. apply IH; auto. destruct d; lia.
Qed.
Print Assumptions C77_not_missed.

Lemma pos_inj p q : 0 <= fst p < W64 -> 0 <= fst q < W64 -> at_pos p = at_pos q -> fst p = fst q.
Proof. intros P Q E. unfold at_pos in E. apply (f_equal reverse64) in E. rewrite !reverse64_involutive in E by assumption. exact E. Qed.
Lemma least_alone m from p b c : ranged_map m -> least m from p b -> sm_map m (fst p, c) <> None -> c = snd p.
Proof.
  intros RM (L1 & L2 & L3) N. destruct (L3 (fst p, c) N) as [E|E]; [exact L2| |exfalso; revert E; unfold at_pos; cbn [fst]; lia].
  rewrite <- E. reflexivity.
Qed.
(** after the callback on p: everything from there on lies beyond p *)
Lemma beyond_shown {A} h (f : A -> option gkey -> gval -> body A) m from a p b m' d x : no_revival h f -> ranged_map m -> least m from p b ->
  sexec h p m (f a (bd_view (sm_view m) b) (bd_val b)) = (m', d, x) ->
  ranged_map m' /\ (d = true -> forall q, sm_map m' q <> None -> at_pos q <> at_pos p).
Proof.
  intros NR RM LS SX. assert (RM' : ranged_map m').
  { pose proof (sexec_ranged h p (f a (bd_view (sm_view m) b) (bd_val b)) m RM) as Q. rewrite SX in Q. exact Q. }
  split; auto. intros D q N E. destruct p as [k c], q as [k' c'].
  assert (EK : fst (k', c') = fst (k, c)). { apply pos_inj; auto; cbn [fst]; [apply (RM' k' c' N)|]. apply (RM k c). rewrite (proj1 LS). discriminate. }
  cbn [fst] in EK. subst k'. apply N. apply (NR a m (k, c) b m' d x (proj1 LS) (fun c1 => least_alone m from (k, c) b c1 RM LS) SX D).
Qed.
Lemma ranges_raise {A} h (f : A -> option gkey -> gval -> body A) m from a l r : ranges h f m from a l r -> (forall q, sm_map m q <> None -> at_pos q <> from) -> ranges h f m (from + 1) a l r.
Proof.
  intros R N. assert (LR : forall p b, least m from p b -> least m (from + 1) p b).
  { intros p b (L1 & L2 & L3). split; auto. assert (at_pos p <> from) by (apply N; rewrite L1; discriminate). split; [lia|]. intros q Q1 Q2. apply L3; auto. lia. }
  destruct R as [m from a|m from a E|m from a p b m' d a' LS SX|m from a p b m' d a' l r LS SX R].
  - constructor.
  - constructor. intros p P. specialize (E p P). lia.
  - eapply RG_stop; eauto.
  - eapply RG_go; eauto.
Qed.
(** A callback that brings no deleted key back: every key is shown at most once, in ascending order ... *)
Theorem C77_once : forall A h (f : A -> option gkey -> gval -> body A) view os from a tr r, no_revival h f ->
  ranges h f (sm_run h (sm_empty view) os) from a tr r -> StronglySorted (fun x y => at_pos (fst x) < at_pos (fst y)) tr.
Proof.
  intros A h f view os from a tr r NR R. assert (RM : ranged_map (sm_run h (sm_empty view) os)) by (apply sm_ranged; intros k c X; exfalso; apply X; reflexivity).
  generalize dependent (sm_run h (sm_empty view) os). clear os. intros m R RM.
  induction R as [m from a|m from a E|m from a p b m' d a' LS SX|m from a p b m' d a' l r LS SX R IH]; try (repeat constructor; fail).
  destruct (beyond_shown h f m from a p b m' d _ NR RM LS SX) as [RM' BY]. constructor; [apply IH; auto|].
  assert (R' : ranges h f m' (at_pos p + 1) a' l r). { destruct d; auto. apply ranges_raise; auto. }
  apply Forall_forall. intros x X. cbn [fst]. pose proof (proj2 (ranges_from _ _ _ _ _ _ _ R') x X). lia.
Qed.
Print Assumptions C77_once.

(** ... and Range ends. *)
Lemma standing_raise s m i from : standing s m i from -> (forall q, sm_map m q <> None -> at_pos q <> from) -> standing s m i (from + 1).
Proof.
  intros (H & RM & L & R & E & EL & HL & HR) N. split; auto. split; auto. exists L, R. split; auto. split; auto. split.
  - intros x X1 X2. specialize (HL x X1 X2). lia.
  - intros x X1 X2. specialize (HR x X1 X2). assert (HX : In x (m_items s)) by (rewrite E; apply in_or_app; auto).
    assert (at_pos (code x) <> from). { apply N. rewrite (code_bound s m x H HX X2). discriminate. }
    unfold at_pos, code in *. cbn [fst] in *. rewrite (rev_in s x (hd_inv _ _ H) HX) in *. lia.
Qed.
Lemma ends_from {A} h (f : A -> option gkey -> gval -> body A) : no_revival h f ->
  forall d s m i from a, standing s m i from -> W64 - from <= Z.of_nat d -> (forall n, range_covered h f n s m i a) -> exists n, snd (range_at h f n s i a) <> None.
Proof.
  intros NR. induction d as [|d IHd]; intros s m i from a ST D C.
  all: remember (List.length (m_items s) - i)%nat as w eqn:W; revert i ST C W; induction w as [w IHw] using lt_wf_ind; intros i ST C W.
  all: destruct (nth_error (m_items s) i) as [e|] eqn:N; [|exists 1%nat; cbn [range_at]; rewrite N; discriminate].
  all: assert (LT : (i < List.length (m_items s))%nat) by (apply nth_error_Some; congruence).
  all: destruct (ignored e) eqn:IG;
    [assert (C' : forall n, range_covered h f n s m (S i) a) by (intros n; specialize (C (S n)); cbn [range_covered] in C; rewrite N, IG in C; exact C);
     destruct (IHw (List.length (m_items s) - S i)%nat ltac:(lia) (S i) (stands_skip s m i from e ST N IG) C' eq_refl) as (n & Q); exists (S n); cbn [range_at]; rewrite N, IG; exact Q|].
  all: pose proof (C 1%nat) as C0; cbn [range_covered] in C0; rewrite N, IG in C0;
    destruct (exec h s i (f a (view_key (m_view s) e) (e_val e))) as [[s' i'] [a' go]] eqn:EX;
    destruct (sexec h (code e) m (f a (view_key (m_view s) e) (e_val e))) as [[m' dd] x'] eqn:SX;
    destruct (sexec_any h (0, 0) (code e) (f a (view_key (m_view s) e) (e_val e)) m) as [SA _]; rewrite SX in SA; cbn [fst] in SA;
    destruct (sexec h (0, 0) m (f a (view_key (m_view s) e) (e_val e))) as [[m0 d0] x0] eqn:S0; cbn [fst] in SA; subst m0; destruct C0 as [C1 _];
    destruct (stands_next h f s m i from a e ST N IG C1 _ _ _ _ _ _ EX SX) as (<- & LS & AP & VK & ST').
  - exfalso. destruct LS as (_ & L2 & _). rewrite AP in L2. pose proof (sv_rev_range s e (hd_inv _ _ (proj1 ST)) (nth_error_In _ _ N)) as RR. rewrite MAX64_val in RR. rewrite W64_val in D. lia.
  - destruct go; [|exists 1%nat; cbn [range_at fst snd]; rewrite N, IG, EX; discriminate].
    assert (VV : e_val e = bd_val (bd_of e)) by reflexivity. pose proof SX as SX'. rewrite VK, VV in SX'.
    destruct (beyond_shown h f m from a (code e) (bd_of e) m' dd _ NR (proj1 (proj2 ST)) LS SX') as [_ BY].
    assert (ST2 : standing s' m' (S i') (at_pos (code e) + 1)). { destruct dd; auto. apply standing_raise; auto. }
    destruct (IHd s' m' (S i') (at_pos (code e) + 1) a' ST2) as (n & Q).
    + destruct LS as (_ & L2 & _). lia.
    + intros n. specialize (C (S n)). cbn [range_covered] in C. rewrite N, IG, EX, S0 in C. destruct C as [_ C]. apply C. reflexivity.
    + exists (S n). cbn [range_at fst snd]. rewrite N, IG, EX. destruct (range_at h f n s' (S i') a') as [l r]. exact Q.
Qed.
Lemma stands_first h view max mode os : all_covered h (new_map view max mode false) (sm_empty view) os ->
  standing (run h (new_map view max mode false) os) (sm_run h (sm_empty view) os) 0 0.
Proof.
  intros AC. destruct (run_ok h os _ _ (new_map_holds view max mode false) AC) as [H _].
  split; auto. split; [apply sm_ranged; intros k c X; exfalso; apply X; reflexivity|]. exists [], (m_items (run h (new_map view max mode false) os)).
  split; auto. split; auto. split; [intros ? []|]. intros x X _. pose proof (sv_rev_range _ x (hd_inv _ _ H) X). lia.
Qed.
Theorem C77_ends : forall A h (f : A -> option gkey -> gval -> body A) view max mode os a,
  mode <> CombineSearch4 -> all_covered h (new_map view max mode false) (sm_empty view) os -> no_revival h f ->
  let s := run h (new_map view max mode false) os in
  (forall n, range_covered h f n s (sm_run h (sm_empty view) os) 0 a) -> exists n, snd (range_at h f n s 0 a) <> None.
Proof.
  intros A h f view max mode os a _ AC NR s C. apply (ends_from h f NR (Z.to_nat W64) s (sm_run h (sm_empty view) os) 0 0 a); auto.
  - apply stands_first; auto.
  - rewrite W64_val. lia.
Qed.
Print Assumptions C77_ends.

(** A callback that makes no call: the Range of C10. *)
Theorem C77_pure : forall A h (f : A -> option gkey -> gval -> A * bool) s a,
  snd (range_at h (fun a k v => Done (fst (f a k v)) (snd (f a k v))) (S (List.length (m_items s))) s 0 a) = Some (s, range s f a).
Proof.
  intros A h f s a. unfold range.
  assert (G : forall l pre n a, m_items s = pre ++ l -> (List.length l < n)%nat ->
    snd (range_at h (fun a k v => Done (fst (f a k v)) (snd (f a k v))) n s (List.length pre) a) = Some (s, range_loop (m_view s) f a l)).
  { clear a. induction l as [|e l IH]; intros pre n a E LT; (destruct n as [|n]; [lia|]); cbn [range_at range_loop].
    - rewrite (proj2 (nth_error_None (m_items s) (List.length pre))) by (rewrite E, app_nil_r; auto). reflexivity.
    - assert (N : nth_error (m_items s) (List.length pre) = Some e) by (rewrite E, nth_error_app2, Nat.sub_diag by auto; reflexivity). rewrite N.
      assert (I1 : forall a, snd (range_at h (fun a k v => Done (fst (f a k v)) (snd (f a k v))) n s (S (List.length pre)) a) = Some (s, range_loop (m_view s) f a l)).
      { intros a1. replace (S (List.length pre)) with (List.length (pre ++ [e])) by (rewrite app_length; cbn [List.length]; lia). apply IH; [rewrite <- app_assoc; exact E|cbn [List.length] in LT; lia]. }
      destruct (ignored e); [apply I1|]. cbn [exec fst snd].
      destruct (f a (view_key (m_view s) e) (e_val e)) as [a' go]. cbn [fst snd]. destruct go; [|reflexivity].
      specialize (I1 a'). destruct (range_at _ _ _ _ _ _) as [l1 r1]. exact I1. }
  apply (G (m_items s) [] _ a eq_refl). lia.
Qed.
Print Assumptions C77_pure.

(** The callback that deletes the key it is shown. *)
Definition sweep : unit -> option gkey -> gval -> body unit :=
  fun a key _ => match key with Some key => Call (OpDelete key) (fun _ => Done a true) | None => Done a true end.
Definition keyed (h : hashes) (m : smap) : Prop := forall p b, sm_map m p = Some b -> key_to_hash h (bd_key b) = Some p.
Lemma step_keyed h m o : keyed h m -> keyed h (fst (sm_step h m o)).
Proof.
  intros K.
  assert (PU : forall p b vw c, (forall x, b = Some x -> key_to_hash h (bd_key x) = Some p) -> keyed h (mkSM (sm_put m p b) vw c)).
  { intros p b vw c B q x. cbn [sm_map]. unfold sm_put. destruct (pair_eqb p q) eqn:E; [|apply K]. apply pair_ok in E. subst q. intros E. apply B. exact E. }
  assert (U : forall p b v, sm_map m p = Some b -> keyed h (fst (sm_update m p b v))).
  { intros p b v B. unfold sm_update. destruct (assign _ _ _) as [[v' ok]|]; cbn [fst]; auto. apply PU. intros x E. injection E as <-. cbn [bd_key]. apply (K p b B). }
  destruct o; cbn [sm_step fst]; auto.
  - destruct (key_to_hash h key) as [p|] eqn:H; auto. destruct (sm_map m p) eqn:B; auto. destruct key; cbn [fst]; auto. apply PU. intros x E. injection E as <-. exact H.
  - destruct (key_to_hash h (i_key i)) as [p|] eqn:H; auto. destruct (sm_map m p) eqn:B; auto. cbn [fst]. apply PU. intros x E. injection E as <-. exact H.
  - destruct (key_to_hash h key) as [p|] eqn:H; auto. destruct (sm_map m p) eqn:B; auto. cbn [fst]. apply PU. intros x E. discriminate E.
  - destruct (key_to_hash h key) as [p|] eqn:H; auto. destruct (sm_map m p) eqn:B; auto. cbn [fst]. apply PU. intros x E. discriminate E.
Qed.
Lemma run_keyed h os : forall m, keyed h m -> keyed h (sm_run h m os).
Proof. induction os as [|o os IH]; intros m K; cbn [sm_run]; auto using step_keyed. Qed.
Lemma sweep_covered h n : forall s m i a, range_covered h sweep n s m i a.
Proof.
  induction n as [|n IH]; intros s m i a; cbn [range_covered]; auto. destruct (nth_error (m_items s) i) as [e|]; auto. destruct (ignored e); auto.
  unfold sweep. destruct (view_key (m_view s) e) as [key|]; cbn [exec sexec body_covered].
  - cbv zeta. split; [|intros _; apply IH]. split; auto. split; cbn; auto.
  - split; [auto|]. intros _. apply IH.
Qed.
Lemma sweep_once h : no_revival h sweep.
Proof.
  intros a m p b m' d x B U SX D c. unfold sweep in SX. destruct (bd_view (sm_view m) b) as [key|]; cbn [sexec] in SX; [|injection SX as _ X _; congruence].
  cbv zeta in SX. cbn [sm_step] in SX. injection SX as <- X _. rewrite D in X. unfold removes in X. cbn [is_delete andb touches] in X. rewrite orb_false_r in X.
  destruct (key_to_hash h key) as [q|]; [|discriminate X]. apply andb_true_iff in X as [X _]. apply pair_ok in X. subst q. rewrite B. cbn [fst sm_map]. unfold sm_put.
  destruct (pair_eqb p (fst p, c)) eqn:E; auto. destruct (sm_map m (fst p, c)) eqn:Q; auto. exfalso.
  assert (c = snd p) by (apply U; congruence). subst c. destruct p as [k c]. cbn [fst snd] in E. rewrite (proj2 (pair_ok (k, c) (k, c)) eq_refl) in E. discriminate E.
Qed.
Lemma sweep_empties h m from a tr m' a' : ranges h sweep m from a tr (Some (m', a')) -> keyed h m -> (forall p b, sm_map m p = Some b -> bd_view (sm_view m) b <> None) ->
  (forall q, sm_map m q <> None -> from <= at_pos q) -> forall q, sm_map m' q = None /\ (sm_map m q <> None -> In q (map fst tr)).
Proof.
  intros R. remember (Some (m', a')) as r eqn:ER.
  induction R as [m from a|m from a E|m from a p b m1 d a1 LS SX|m from a p b m1 d a1 l r LS SX R IH]; try discriminate; intros K V F q.
  - injection ER as <- _. destruct (sm_map m q) eqn:Q; [|split; auto; congruence]. exfalso. assert (N : sm_map m q <> None) by congruence. specialize (E q N). specialize (F q N). lia.
  - exfalso. unfold sweep in SX. destruct (bd_view (sm_view m) b); cbn [sexec] in SX; [cbv zeta in SX|]; injection SX; discriminate.
  - assert (B := proj1 LS). unfold sweep in SX. destruct (bd_view (sm_view m) b) as [key|] eqn:BV; [|exfalso; apply (V p b B BV)].
    assert (key = bd_key b). { unfold bd_view in BV. destruct (sm_view m), (bd_kind b); congruence. } subst key.
    cbn [sexec] in SX. cbv zeta in SX. cbn [sm_step] in SX. rewrite (K p b B), B in SX. cbn [fst snd] in SX. injection SX as <- X _.
    unfold removes in X. cbn [is_delete andb touches] in X. rewrite (K p b B), (proj2 (pair_ok p p) eq_refl) in X. cbn [andb orb] in X. subst d.
    assert (SUB : forall q x, sm_put m p None q = Some x -> sm_map m q = Some x). { intros q0 x. unfold sm_put. destruct (pair_eqb p q0); [discriminate|auto]. }
    assert (IQ : sm_map m' q = None /\ (sm_put m p None q <> None -> In q (map fst l))).
    { apply IH; auto; cbn [sm_map sm_view].
      + intros q0 x Q. apply (K q0 x). apply SUB. exact Q.
      + intros q0 x Q. apply (V q0 x). apply SUB. exact Q.
      + intros q0 Q. destruct (sm_put m p None q0) as [x|] eqn:QE; [|congruence]. apply SUB in QE.
        assert (N : sm_map m q0 <> None) by congruence. destruct (proj2 (proj2 LS) q0 N (F q0 N)) as [->|]; lia. }
    destruct IQ as [I1 I2]. split; auto. intros N. cbn [map fst]. unfold sm_put in I2. destruct (pair_eqb p q) eqn:E; [apply pair_ok in E; left; auto|right; auto].
Qed.
(** After every covered history in which every stored item has the type the map reads with: Range with this callback ends, has
    shown every key exactly once, and leaves a map in which no key is found and which Range finds empty. *)
Theorem C77_sweep : forall h view max mode os, mode <> CombineSearch4 ->
  all_covered h (new_map view max mode false) (sm_empty view) os ->
  let s := run h (new_map view max mode false) os in
  let m := sm_run h (sm_empty view) os in
  (forall p b, sm_map m p = Some b -> bd_view (sm_view m) b <> None) ->
  exists n tr s', range_at h sweep n s 0 tt = (map snd tr, Some (s', tt)) /\
    StronglySorted (fun x y => at_pos (fst x) < at_pos (fst y)) tr /\ (forall p, sm_map m p <> None -> In p (map fst tr)) /\
    (forall key p, key_to_hash h key = Some p -> snd (step h s' (OpGet key)) = RVal GNil false) /\ range_count s' = 0.
Proof.
  intros h view max mode os MO AC s m V.
  destruct (C77_ends unit h sweep view max mode os tt MO AC (sweep_once h)) as (n & N). { intros n. apply sweep_covered. } fold s in N.
  pose proof (stands_first h view max mode os AC) as ST. fold s m in ST.
  destruct (range_law h sweep n s m 0 0 tt ST (sweep_covered h n s m 0 tt)) as (tr & r & R1 & R2 & R3).
  destruct (range_at h sweep n s 0 tt) as [l rr] eqn:RA. cbn [fst snd] in *. destruct rr as [[s' []]|]; [|congruence].
  destruct r as [[m' a'']|]; [|destruct R3]. destruct R3 as (-> & H' & _).
  assert (POS : forall q, sm_map m q <> None -> 0 <= at_pos q) by (intros q _; unfold at_pos; pose proof (reverse64_range (fst q)); lia).
  assert (KD : keyed h m) by (apply run_keyed; intros p b X; discriminate X).
  pose proof (sweep_empties h m 0 tt tr m' tt R1 KD V POS) as EM.
  exists n, tr, s'. split; [rewrite R2; auto|]. split; [apply (C77_once unit h sweep view os 0 tt tr _ (sweep_once h) R1)|]. split; [|split].
  - intros p NP. apply EM. exact NP.
  - intros key p K. destruct p as [k c]. destruct (key_range _ _ _ _ K) as [Hk _]. cbn [step]. unfold with_key. rewrite K.
    rewrite (get_val_ok s' m' k c (get s' k c) H' Hk). { cbn [snd]. unfold sm_get. rewrite (proj1 (EM (k, c))). reflexivity. } apply get_spec. apply (hd_inv _ _ H').
  - rewrite range_count_nlive. unfold nlive. destruct (filter live (m_items s')) as [|e q] eqn:FE; auto. exfalso.
    assert (IE : In e (filter live (m_items s'))) by (rewrite FE; left; auto). apply filter_In in IE as [I1 I2].
    pose proof (code_bound s' m' e H' I1 I2) as CB. rewrite (proj1 (EM (code e))) in CB. discriminate CB.
Qed.
Print Assumptions C77_sweep.

(** The natural claim: whatever covered calls the callback makes, no key is shown twice. *)
Definition shown_once : Prop := forall A h (f : A -> option gkey -> gval -> body A) view max mode os n a,
  mode <> CombineSearch4 -> all_covered h (new_map view max mode false) (sm_empty view) os ->
  let s := run h (new_map view max mode false) os in
  range_covered h f n s (sm_run h (sm_empty view) os) 0 a -> NoDup (map fst (fst (range_at h f n s 0 a))).
(** the callback deletes the key "ab" and stores it again, [a] times *)
Definition again : Z -> option gkey -> gval -> body Z :=
  fun a _ v => if a <=? 0 then Done a true else Call (OpDelete (KStr "ab")) (fun _ => Call (OpSet (KStr "ab") v) (fun _ => Done (a - 1) true)).
(** deciders for the examples *)
Definition ws_next (h : hashes) (ws : list (Z * Z)) (o : op) : list (Z * Z) := match writes h o with Some p => p :: ws | None => ws end.
Fixpoint body_b {A} (h : hashes) (s : mstate) (m : smap) (ws : list (Z * Z)) (b : body A) : bool * list (Z * Z) :=
  match b with
  | Done _ _ => (true, ws)
  | Call o k => let '(x, ws') := body_b h (fst (step h s o)) (fst (sm_step h m o)) (ws_next h ws o) (k (snd (step h s o))) in (cov_b h s m ws [o] && x, ws')
  end.
Fixpoint range_b {A} (h : hashes) (f : A -> option gkey -> gval -> body A) (n : nat) (s : mstate) (m : smap) (ws : list (Z * Z)) (i : nat) (a : A) : bool :=
  match n with
  | O => true
  | S n' =>
      match nth_error (m_items s) i with
      | None => true
      | Some e =>
          if ignored e then range_b h f n' s m ws (S i) a
          else let b := f a (view_key (m_view s) e) (e_val e) in
               let '(s', i', (a', go)) := exec h s i b in
               let '(m', _, _) := sexec h (0, 0) m b in
               let '(x, ws') := body_b h s m ws b in
               x && (negb go || range_b h f n' s' m' ws' (S i') a')
      end
  end.
Lemma body_b_ok {A} h (b : body A) : forall s m ws, (forall p, sm_map m p <> None -> In p ws) -> holds s m -> fst (body_b h s m ws b) = true ->
  body_covered h s m b /\ forall p, sm_map (fst (fst (sexec h (0, 0) m b))) p <> None -> In p (snd (body_b h s m ws b)).
Proof.
  induction b as [a go|o k IH]; intros s m ws D H B; cbn [body_b body_covered sexec fst snd] in *; auto. cbv zeta.
  destruct (body_b h (fst (step h s o)) (fst (sm_step h m o)) (ws_next h ws o) (k (snd (step h s o)))) as [x ws'] eqn:E. cbn [fst snd] in *.
  apply andb_true_iff in B as [B1 ->]. destruct (cov_b_ok h [o] s m ws D B1) as [C1 _]. destruct (step_ok h s m o H C1) as [H1 E1].
  destruct (IH (snd (step h s o)) (fst (step h s o)) (fst (sm_step h m o)) (ws_next h ws o)) as [I1 I2]; auto; [apply sm_dom; auto|rewrite E; auto|].
  rewrite E in I2. cbn [snd] in I2. rewrite E1 in I2. split; auto. destruct (sexec h (0, 0) _ _) as [[m1 d1] x1]. exact I2.
Qed.
Lemma exec_holds {A} h (b : body A) : forall s m i, holds s m -> body_covered h s m b -> holds (fst (fst (exec h s i b))) (fst (fst (sexec h (0, 0) m b))).
Proof.
  induction b as [a go|o k IH]; intros s m i H C; cbn [exec sexec body_covered fst] in *; auto. cbv zeta. destruct C as [C1 C2]. destruct (step_ok h s m o H C1) as [H1 E1].
  specialize (IH _ _ _ (step_at h s o i) H1 C2). rewrite <- E1. destruct (sexec h (0, 0) _ _) as [[m1 d1] x1]. exact IH.
Qed.
Lemma range_b_ok {A} h (f : A -> option gkey -> gval -> body A) n : forall s m ws i a, (forall p, sm_map m p <> None -> In p ws) -> holds s m ->
  range_b h f n s m ws i a = true -> range_covered h f n s m i a.
Proof.
  induction n as [|n IH]; intros s m ws i a D H B; cbn [range_b range_covered] in *; auto. destruct (nth_error (m_items s) i) as [e|]; auto. destruct (ignored e); [eapply IH; eauto|].
  pose proof (body_b_ok h (f a (view_key (m_view s) e) (e_val e)) s m ws D H) as BB. pose proof (exec_holds h (f a (view_key (m_view s) e) (e_val e)) s m i H) as EH.
  destruct (exec h s i _) as [[s' i'] [a' go]]. destruct (sexec h (0, 0) m _) as [[m' d] x']. destruct (body_b h s m ws _) as [x ws'].
  cbn [fst snd] in *. apply andb_true_iff in B as [-> B2]. destruct (BB eq_refl) as [B3 B4]. split; auto. intros ->. cbn [negb orb] in B2. eapply IH; eauto.
Qed.
Lemma range_new {A} h (f : A -> option gkey -> gval -> body A) n view max mode os a : all_covered h (new_map view max mode false) (sm_empty view) os ->
  range_b h f n (run h (new_map view max mode false) os) (sm_run h (sm_empty view) os) (fold_left (ws_next h) os []) 0 a = true ->
  range_covered h f n (run h (new_map view max mode false) os) (sm_run h (sm_empty view) os) 0 a.
Proof.
  intros AC. apply range_b_ok; [|apply (stands_first h view max mode os AC)].
  assert (G : forall m ws, (forall p, sm_map m p <> None -> In p ws) -> forall p, sm_map (sm_run h m os) p <> None -> In p (fold_left (ws_next h) os ws)).
  { clear. induction os as [|o os IH]; intros m ws D; cbn [sm_run fold_left]; auto. apply IH. apply sm_dom; auto. }
  apply G. intros p X. exfalso. apply X. reflexivity.
Qed.
Theorem C77_shown_once_refuted : ~ shown_once.
Proof.
  intros H.
  assert (AC : all_covered hx (new_map KEntry 8 CombineSearch2 false) (sm_empty KEntry) [OpSet (KStr "ab") (GV 1 7)]) by cov_tac.
  specialize (H Z hx again KEntry 8 CombineSearch2 [OpSet (KStr "ab") (GV 1 7)] 25%nat 1 ltac:(discriminate) AC).
  cbv zeta in H. specialize (H ltac:(apply range_new; [exact AC|vm_compute; reflexivity])).
  assert (X : ~ NoDup [Some (KStr "ab"); Some (KStr "ab")]) by (intros N; inversion N as [|? ? N1 _]; apply N1; left; reflexivity).
  apply X. clear X. remember (map fst (fst (range_at hx again 25 (run hx (new_map KEntry 8 CombineSearch2 false) [OpSet (KStr "ab") (GV 1 7)]) 0 1))) as l eqn:L.
  vm_compute in L. subst l. inversion H as [|? ? H1 _]. exfalso. apply H1. left. reflexivity.
Qed.
Print Assumptions C77_shown_once_refuted.

(** On a map with the key "ab" alone the callback is called 21 times by one Range. *)
Example C77_again_case :
  let s := run hx (new_map KEntry 8 CombineSearch2 false) [OpSet (KStr "ab") (GV 1 7)] in
  range_covered hx again 60 s (sm_run hx (sm_empty KEntry) [OpSet (KStr "ab") (GV 1 7)]) 0 20 /\
  fst (range_at hx again 60 s 0 20) = repeat (Some (KStr "ab"), GV 1 7) 21.
Proof. cbv zeta. split; [apply range_new; [cov_tac|vm_compute; reflexivity]|vm_compute; reflexivity]. Qed.

(** Three keys; shown 21 the callback stores 19, which is ahead, and deletes 23, whose turn would come; shown 19 it stores 37,
    which is behind, and by that splits a bucket before the item Range stands on. *)
Definition mixed : Z -> option gkey -> gval -> body Z := fun a key v =>
  if a =? 0 then Call (st 19 5) (fun _ => Call (OpDelete (KU64 23)) (fun _ => Done 1 true))
  else if a =? 1 then Call (st 37 6) (fun r => match r with RBool true => Done 2 true | _ => Done 9 false end) else Done (a + 1) true.
Definition mixed_ops : list op := [st 21 1; st 23 3; st 27 4].
Example C77_mixed_case :
  let s := run hx (new_map KEntry 1 CombineSearch2 false) mixed_ops in
  let m := sm_run hx (sm_empty KEntry) mixed_ops in
  all_covered hx (new_map KEntry 1 CombineSearch2 false) (sm_empty KEntry) mixed_ops /\ range_covered hx mixed 30 s m 0 0 /\
  fst (range_at hx mixed 30 s 0 0) = [(Some (KU64 21), GV 1 1); (Some (KU64 19), GV 1 5); (Some (KU64 27), GV 1 4)] /\
  match snd (range_at hx mixed 30 s 0 0) with Some (s', a) => a = 3 /\ (List.length (m_bl s') > List.length (m_bl s))%nat /\ snd (step hx s' (OpGet (KU64 37))) = RVal (GV 1 6) true | None => False end.
Proof.
  cbv zeta. split; [cov_tac|]. split; [apply range_new; [cov_tac|vm_compute; reflexivity]|]. split; [vm_compute; reflexivity|].
  vm_compute. split; [reflexivity|]. split; [repeat constructor|reflexivity].
Qed.
Lemma stores_viewed h os : forall m, (sm_view m = KEntry /\ forall p b, sm_map m p = Some b -> bd_kind b = KEntry) ->
  forallb (fun o => match o with OpStore i => match i_kind i with KEntry => true | _ => false end | _ => false end) os = true ->
  forall p b, sm_map (sm_run h m os) p = Some b -> bd_view (sm_view (sm_run h m os)) b <> None.
Proof.
  induction os as [|o os IH]; intros m [V K] F; cbn [sm_run forallb] in *.
  - intros p b B. rewrite V. unfold bd_view. rewrite (K p b B). discriminate.
  - apply andb_true_iff in F as [F1 F2]. destruct o as [|i| | | | | | |]; try discriminate F1. apply IH; auto. cbn [sm_step].
    destruct (key_to_hash h (i_key i)) as [q|]; [|auto].
    assert (P : forall x, bd_kind x = KEntry -> forall p b, sm_put m q (Some x) p = Some b -> bd_kind b = KEntry).
    { intros x X p b. unfold sm_put. destruct (pair_eqb q p); [intros E; injection E as <-; exact X|apply K]. }
    destruct (sm_map m q) as [b|] eqn:B.
    + unfold sm_update. destruct (assign _ _ _) as [[v' ok]|]; cbn [fst sm_view sm_map]; auto. split; auto. apply P. cbn [bd_kind]. apply (K q b B).
    + cbn [fst sm_view sm_map]. split; auto. apply P. cbn [bd_kind]. destruct (i_kind i); [discriminate F1|reflexivity].
Qed.
(** The callback that deletes what it is shown, on the same map. *)
Example C77_sweep_case :
  let s := run hx (new_map KEntry 1 CombineSearch2 false) mixed_ops in
  let m := sm_run hx (sm_empty KEntry) mixed_ops in
  (forall p b, sm_map m p = Some b -> bd_view (sm_view m) b <> None) /\
  fst (range_at hx sweep 30 s 0 tt) = [(Some (KU64 21), GV 1 1); (Some (KU64 27), GV 1 4); (Some (KU64 23), GV 1 3)].
Proof.
  cbv zeta. split; [|vm_compute; reflexivity]. apply stores_viewed; [|reflexivity]. split; [reflexivity|]. intros p b X. discriminate X.
Qed.
