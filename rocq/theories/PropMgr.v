(** Property theorems about pool allocation by managing goroutines: C66. The model is ConcMgr.v. *)
From Verif Require Import Base Util UtilProofs ConcPool ConcMgr.
From Coq Require Import PeanoNat.
Local Open Scope list_scope.
Local Open Scope nat_scope.

(** * Vocabulary *)
(** the indices of the items handed over, in order *)
Definition indices (s : gstate) : list nat := map (fun x => snd (snd x)) (g_got s).

(** * Invariant *)
(** Get has returned *)
Definition returned (p : ppc) : bool := match p with PIdle | PHold => true | _ => false end.
Definition busy_ok (s : pstate) : Prop :=
  match p_pcs s 0 with
  | PIdle => p_mu s = None /\ p_init s = true
  | PStart => p_mu s = None
  | PInit1 => p_mu s = None /\ p_init s = false
  | PInit2 => p_mu s = None /\ p_len s = 0 /\ p_init s = true
  | PCheck => p_mu s = None /\ p_init s = true
  | PRead => p_mu s = None /\ p_init s = true /\ p_len s < p_cap s
  | PLock i => p_mu s = None /\ p_init s = true /\ i = p_len s /\ S i = p_cap s
  | PCas i h => p_init s = true /\ i = p_len s /\ i < p_cap s /\ p_mu s = (if h then Some 0 else None)
  | PAt i h => p_init s = true /\ S i = p_len s /\ i < p_cap s /\ p_mu s = (if h then Some 0 else None)
  | PHold => p_init s = true /\ p_mu s = Some 0
  | PExp => p_init s = true /\ p_mu s = None /\ 0 < p_len s
  | PExpIn => p_init s = true /\ p_mu s = Some 0 /\ 0 < p_len s
  | PTry | PCrash => False
  end.
(** the number of items handed out by the segment *)
Definition handed (s : pstate) : nat := match p_pcs s 0 with PAt _ _ => p_len s - 1 | _ => p_len s end.
Record segok (s : pstate) : Prop := {
  so_len : p_len s <= p_cap s;
  so_cap : p_init s = true -> p_pcs s 0 <> PInit2 -> 0 < p_cap s;
  so_new : p_init s = false -> p_len s = 0;
  so_out : map (fun x => snd (snd x)) (p_out s) = seq 0 (handed s) }.
Lemma pgo_same s t p : p_pcs (pgo s t p) t = p.
Proof. cbn. rewrite Nat.eqb_refl. auto. Qed.
Lemma handed_go s p : (forall i h, p <> PAt i h) -> handed (pgo s 0 p) = p_len s.
Proof. intros H. unfold handed. rewrite pgo_same. cbn. destruct p; auto. elim (H i h). auto. Qed.
Lemma handed_is s p : p_pcs s 0 = p -> (forall i h, p <> PAt i h) -> handed s = p_len s.
Proof. intros <- H. unfold handed. destruct (p_pcs s 0) eqn:P; auto. elim (H i h). auto. Qed.
(** how many steps the managing goroutine still needs for the request *)
Definition rank (s : pstate) : nat :=
  match p_pcs s 0 with
  | PIdle => 1 | PHold => 2 | PAt _ _ => 3 | PCas _ _ => 4 | PLock _ => 5 | PRead => 6
  | PCheck => if p_len s <? p_cap s then 7 else 11
  | PStart => if p_init s then (if p_len s <? p_cap s then 8 else 12) else 12
  | PInit2 => 8 | PInit1 => 9 | PExpIn => 9 | PExp => 10
  | PTry | PCrash => 0
  end.
Definition out_step (s s' : pstate) : Prop :=
  (p_out s' = p_out s /\ returned (p_pcs s' 0) = returned (p_pcs s 0)) \/
  (returned (p_pcs s 0) = false /\ returned (p_pcs s' 0) = true /\ exists x, p_out s' = p_out s ++ [x]).
Lemma seg_step s : busy_ok s -> segok s -> p_pcs s 0 <> PIdle -> p_pcs s 0 <> PExpIn ->
  exists s', pstep s 0 = Some s' /\ busy_ok s' /\ segok s' /\ rank s' < rank s /\ out_step s s'.
Proof.
  intros B [L1 L2 L3 OUT] N1 N2.
  assert (K : forall s1 p, p_out s1 = p_out s -> p_len s1 = p_len s -> (forall i h, p <> PAt i h) -> (forall i h, p_pcs s 0 <> PAt i h) -> pstep s 0 = Some (pgo s1 0 p) -> busy_ok (pgo s1 0 p) -> p_len s1 <= p_cap s1 -> (p_init s1 = true -> p <> PInit2 -> 0 < p_cap s1) -> (p_init s1 = false -> p_len s1 = 0) ->
    rank (pgo s1 0 p) < rank s -> returned p = returned (p_pcs s 0) -> exists s', pstep s 0 = Some s' /\ busy_ok s' /\ segok s' /\ rank s' < rank s /\ out_step s s').
  { intros s1 p E0 E1 NA NA0 E B' A1 A2 A3 A4 A5. exists (pgo s1 0 p). split; auto. split; auto. split; [|split; auto].
    - constructor; [exact A1|rewrite pgo_same; exact A2|exact A3|]. rewrite handed_go by auto. cbn [p_out pgo]. rewrite E0, E1, OUT. f_equal. apply (handed_is s _ eq_refl). auto.
    - left. cbn [p_out pgo]. rewrite pgo_same. auto. }
  unfold busy_ok in B. destruct (p_pcs s 0) as [| | | | | |i|i h| |i h| | | |] eqn:P; try contradiction; try congruence.
  - (* PStart *) destruct (p_init s) eqn:IN.
    + apply (K s PCheck); auto; try discriminate; [unfold pstep; rewrite P, IN; auto|unfold busy_ok; rewrite pgo_same; auto|intros _ _; apply L2; auto; discriminate|congruence|].
      unfold rank. rewrite pgo_same, P, IN. cbn [p_len p_cap pgo]. destruct (_ <? _); lia.
    + apply (K s PInit1); auto; try discriminate; [unfold pstep; rewrite P, IN; auto|unfold busy_ok; rewrite pgo_same; auto|congruence|unfold rank; rewrite pgo_same, P, IN; lia].
  - (* PInit1 *) destruct B as [B1 B2]. eapply (K _ PInit2); [| | | |unfold pstep; rewrite P; reflexivity|..]; auto; try discriminate; cbn [p_len p_cap p_init].
    + unfold busy_ok. rewrite pgo_same. cbn. auto.
    + unfold rank. rewrite pgo_same, P. lia.
  - (* PInit2 *) destruct B as (B1 & B2 & B3). eapply (K _ PCheck); [| | | |unfold pstep; rewrite P; reflexivity|..]; auto; try discriminate; cbn [p_len p_cap p_init]; unfold seg_cap; auto; try lia.
    + unfold busy_ok. rewrite pgo_same. cbn. auto.
    + unfold rank. rewrite pgo_same, P. cbn. lia.
  - (* PCheck *) destruct B as [B1 B2]. assert (C := L2 B2 ltac:(discriminate)). destruct (Nat.leb_spec (p_cap s) (p_len s)) as [F|F].
    + apply (K s PExp); auto; try discriminate; [unfold pstep; rewrite P, (proj2 (Nat.leb_le _ _) F); auto|unfold busy_ok; rewrite pgo_same; cbn; repeat (split; auto); lia|].
      unfold rank. rewrite pgo_same, P. destruct (Nat.ltb_spec (p_len s) (p_cap s)); lia.
    + apply (K s PRead); auto; try discriminate; [unfold pstep; rewrite P, (proj2 (Nat.leb_gt _ _) F); auto|unfold busy_ok; rewrite pgo_same; cbn; auto|].
      unfold rank. rewrite pgo_same, P. destruct (Nat.ltb_spec (p_len s) (p_cap s)); lia.
  - (* PRead *) destruct B as (B1 & B2 & B3). assert (C := L2 B2 ltac:(discriminate)). destruct (Nat.eqb_spec (S (p_len s)) (p_cap s)) as [F|F].
    + apply (K s (PLock (p_len s))); auto; try discriminate; [unfold pstep; rewrite P; cbv zeta; rewrite (proj2 (Nat.eqb_eq (S (p_len s)) (p_cap s)) F); auto|unfold busy_ok; rewrite pgo_same; cbn [p_len p_cap p_mu p_init pgo]; auto|unfold rank; rewrite pgo_same, P; lia].
    + apply (K s (PCas (p_len s) false)); auto; try discriminate; [unfold pstep; rewrite P; cbv zeta; rewrite (proj2 (Nat.eqb_neq (S (p_len s)) (p_cap s)) F); auto|unfold busy_ok; rewrite pgo_same; cbn [p_len p_cap p_mu p_init pgo]; auto|unfold rank; rewrite pgo_same, P; lia].
  - (* PLock *) destruct B as (B1 & B2 & B3 & B4). apply (K (set_mu s (Some 0)) (PCas i true)); auto; try discriminate; [unfold pstep; rewrite P, B1, (proj2 (Nat.eqb_eq (S i) (p_cap s)) B4); auto|unfold busy_ok; rewrite pgo_same; cbn [p_len p_cap p_mu p_init pgo set_mu]; repeat (split; auto); lia|cbn [p_init p_cap set_mu]; intros; lia|unfold rank; rewrite pgo_same, P; lia].
  - (* PCas *) destruct B as (B1 & B2 & B3 & B4). exists (pgo (set_plen s (S i)) 0 (PAt i h)). split; [unfold pstep; rewrite P, B2, Nat.eqb_refl; auto|]. split; [unfold busy_ok; rewrite pgo_same; cbn [p_len p_cap p_mu p_init pgo set_plen]; auto|].
    split; [|split; [unfold rank; rewrite pgo_same, P; lia|left; rewrite pgo_same, P; auto]]. constructor; cbn [p_len p_cap p_init p_out pgo set_plen]; [lia|intros; lia|intros; congruence|].
    rewrite OUT. unfold handed. rewrite pgo_same, P. cbn [p_len pgo set_plen]. f_equal. lia.
  - (* PAt *) destruct B as (B1 & B2 & B3 & B4). exists (pgo (mkP (p_init s) (p_gen s) (p_len s) (p_cap s) (p_mu s) (p_pcs s) (p_out s ++ [(0, (p_gen s, i))])) 0 (if h then PHold else PIdle)).
    split; [unfold pstep; rewrite P; destruct (Nat.leb_spec (p_len s) i); [lia|]; destruct (Nat.leb_spec (p_cap s) i); [lia|]; auto|]. split; [|split; [|split]].
    + unfold busy_ok. rewrite pgo_same. destruct h; cbn [p_len p_cap p_mu p_init pgo]; auto.
    + constructor; cbn [p_len p_cap p_init p_out pgo]; [lia|intros; lia|congruence|]. rewrite handed_go by (intros; destruct h; discriminate). cbn [p_len]. rewrite map_app, OUT. cbn [map snd]. unfold handed. rewrite P. rewrite <- B2. replace (S i - 1) with i by lia. rewrite seq_S. auto.
    + unfold rank. rewrite pgo_same, P. destruct h; lia.
    + right. rewrite pgo_same, P. split; auto. split; [destruct h; auto|]. eexists. cbn [p_out pgo]. reflexivity.
  - (* PHold *) destruct B as [B1 B2]. apply (K (set_mu s None) PIdle); auto; try discriminate; [unfold pstep; rewrite P; auto|unfold busy_ok; rewrite pgo_same; cbn; auto|cbn [p_init p_cap set_mu]; intros; apply L2; auto; discriminate|unfold rank; rewrite pgo_same, P; lia].
  - (* PExp *) destruct B as (B1 & B2 & B3). apply (K (set_mu s (Some 0)) PExpIn); auto; try discriminate; [unfold pstep; rewrite P, B2; auto|unfold busy_ok; rewrite pgo_same; cbn; auto|cbn [p_init p_cap set_mu]; intros; lia|unfold rank; rewrite pgo_same, P; lia].
Qed.
Lemma seg_expand s : busy_ok s -> segok s -> p_pcs s 0 = PExpIn -> 0 < p_len s /\ busy_ok (new_segment s) /\ segok (new_segment s) /\ rank (new_segment s) < rank s /\ p_out (new_segment s) = p_out s /\ p_pcs (new_segment s) 0 = PStart.
Proof.
  intros B [L1 L2 L3 OUT] P. unfold busy_ok in B. rewrite P in B. destruct B as (B1 & B2 & B3). split; auto.
  pose proof (pool_cap_spec (Z.of_nat (p_len s)) ltac:(lia)) as PC. assert (CAP : p_len s < Z.to_nat (pool_cap (Z.of_nat (p_len s)))) by lia.
  unfold new_segment. split; [|split; [|split; [|split]]].
  - unfold busy_ok. rewrite pgo_same. auto.
  - constructor; cbn [p_len p_cap p_init p_out pgo]; [lia|intros; lia|discriminate|]. rewrite handed_go by discriminate. cbn [p_len]. rewrite OUT. f_equal. apply (handed_is s PExpIn); auto. discriminate.
  - unfold rank. rewrite pgo_same, P. cbn [p_init p_len p_cap pgo]. destruct (Nat.ltb_spec (p_len s) (Z.to_nat (pool_cap (Z.of_nat (p_len s))))); lia.
  - auto.
  - apply pgo_same.
Qed.

Record ginv (s : gstate) : Prop := {
  gi_seg : segok (g_seg s);
  gi_busy : forall t, g_req s = Some t -> busy_ok (g_seg s);
  gi_idle : g_req s = None -> p_pcs (g_seg s) 0 = PIdle /\ p_mu (g_seg s) = None;
  gi_got : exists l, map snd (p_out (g_seg s)) = map snd (g_got s) ++ l /\ match g_req s with Some _ => if returned (p_pcs (g_seg s) 0) then exists a, l = [a] else l = [] | None => l = [] end;
  gi_wait : forall t, g_pcs s t = GWait <-> g_req s = Some t }.
Lemma ginit_inv b : ginv (ginit b).
Proof.
  constructor; cbn; auto; [|discriminate|exists []; auto|intros t; split; discriminate]. constructor; cbn; auto; discriminate.
Qed.
Lemma last_snoc {A} (l : list A) x d : last (l ++ [x]) d = x.
Proof. induction l as [|y l IH]; auto. cbn [app]. destruct (l ++ [x]) eqn:E; [destruct l; discriminate E|]. cbn [last] in *. auto. Qed.
(** The managing goroutine never waits while it serves a request, and comes nearer to the answer with every step. *)
Lemma mgr_step s t : ginv s -> g_req s = Some t -> exists s', mstep s = Some s' /\ ginv s' /\ g_mgr s' = g_mgr s /\
  ((g_req s' = None /\ exists a, g_pcs s' = gupd (g_pcs s) t (GHave a) /\ g_got s' = g_got s ++ [(t, a)]) \/
   (g_req s' = Some t /\ g_pcs s' = g_pcs s /\ g_got s' = g_got s /\ rank (g_seg s') < rank (g_seg s))).
Proof.
  intros [SO BU ID (l & GL & GR) W] R. specialize (BU t R). rewrite R in GR. unfold mstep. rewrite R. set (sg := g_seg s) in *.
  assert (D : p_pcs sg 0 = PIdle \/ p_pcs sg 0 = PExpIn \/ (p_pcs sg 0 <> PIdle /\ p_pcs sg 0 <> PExpIn)) by (destruct (p_pcs sg 0); auto; right; right; split; discriminate).
  destruct D as [D|[D|[D1 D2]]].
  - rewrite D in *. cbn [returned] in GR. destruct GR as (a & ->). assert (LA : last (map snd (p_out sg)) (0, 0) = a) by (rewrite GL; apply last_snoc). cbv zeta. rewrite LA. eexists. split; [reflexivity|]. split; [|split; [reflexivity|left; split; [reflexivity|exists a; auto]]].
    unfold busy_ok in BU. rewrite D in BU. constructor; cbn [g_seg g_req g_pcs g_got]; fold sg; auto; try discriminate; try tauto.
    + exists []. split; auto. rewrite app_nil_r, map_app. cbn [map snd]. auto.
    + intros u. unfold gupd. destruct (Nat.eqb_spec u t) as [->|N]; [split; discriminate|]. rewrite W. split; [congruence|discriminate].
  - rewrite D in *. cbn [returned] in GR. subst l. destruct (seg_expand sg BU SO D) as (L0 & B' & S' & RK & PO & PP). destruct (Nat.eqb_spec (p_len sg) 0); [lia|]. eexists. split; [reflexivity|]. split; [|split; [reflexivity|right; cbn [g_seg g_req g_pcs g_got]; auto]].
    constructor; cbn [g_seg g_req g_pcs g_got]; auto; try discriminate.
    + exists []. rewrite PO, PP. cbn [returned]. auto.
    + rewrite <- R. auto.
  - destruct (seg_step sg BU SO D1 D2) as (sg' & E & B' & S' & RK & OS). exists (mkG (g_mgr s) sg' (Some t) (g_pcs s) (g_got s)). split; [rewrite E; destruct (p_pcs sg 0); auto; congruence|]. split; [|split; [reflexivity|right; cbn [g_seg g_req g_pcs g_got]; auto]].
    constructor; cbn [g_seg g_req g_pcs g_got]; auto; try discriminate; [|rewrite <- R; auto].
    destruct OS as [(P1 & P2)|(P1 & P2 & (x & P3))].
    + exists l. rewrite P1, P2. auto.
    + rewrite P1 in GR. subst l. exists [snd x]. rewrite P2, P3, map_app, GL, app_nil_r. cbn [map]. eauto.
Qed.
Lemma ginv_step s l s' : ginv s -> gstep s l = Some s' -> ginv s' /\ g_mgr s' = g_mgr s.
Proof.
  intros I E. destruct l as [t|]; cbn [gstep] in E.
  - assert (I0 := I). destruct I as [SO BU ID (l & GL & GR) W]. unfold gstep_ in E.
    assert (K : forall p, p <> GWait -> g_pcs s t <> GWait -> ginv (mkG (g_mgr s) (g_seg s) (g_req s) (gupd (g_pcs s) t p) (g_got s))).
    { intros p N N2. constructor; cbn [g_seg g_req g_pcs g_got]; auto; [exists l; auto|]. intros u. unfold gupd. destruct (Nat.eqb_spec u t) as [->|NE]; [|apply W]. rewrite <- W. split; intros; contradiction. }
    destruct (g_pcs s t) eqn:P; try discriminate E.
    + injection E as <-. split; auto. apply K; discriminate.
    + destruct (g_mgr s) eqn:M; [|discriminate E]. destruct (g_req s) eqn:R; [discriminate E|]. injection E as <-. split; auto. destruct (ID eq_refl) as [ID1 ID2]. subst l.
      constructor; cbn [g_seg g_req g_pcs g_got]; try discriminate.
      * destruct SO as [A1 A2 A3 A4]. constructor; cbn [p_len p_cap p_init p_out pgo]; [auto|intros; apply A2; auto; congruence|auto|]. rewrite handed_go by discriminate. rewrite A4. f_equal. apply (handed_is _ PIdle); auto. discriminate.
      * intros u _. unfold busy_ok. rewrite pgo_same. auto.
      * exists []. cbn [p_out pgo]. rewrite pgo_same. cbn [returned]. auto.
      * intros u. unfold gupd. destruct (Nat.eqb_spec u t) as [->|N]; [split; auto|]. rewrite W. split; [discriminate|congruence].
    + injection E as <-. split; auto. apply K; discriminate.
  - assert (R : exists t, g_req s = Some t) by (unfold mstep in E; destruct (g_req s); [eauto|discriminate E]). destruct R as (t & R). destruct (mgr_step s t I R) as (s1 & E1 & I1 & M1 & _). rewrite E in E1. injection E1 as <-. auto.
Qed.
Lemma grun_inv : forall ls s s', ginv s -> grun s ls = Some s' -> ginv s' /\ g_mgr s' = g_mgr s.
Proof.
  induction ls as [|l ls IH]; intros s s' I E; cbn [grun] in E; [injection E as <-; auto|]. destruct (gstep s l) as [s1|] eqn:E1; [|discriminate E]. destruct (ginv_step _ _ _ I E1) as [I1 M1]. destruct (IH _ _ I1 E) as [I2 M2]. split; [auto|congruence].
Qed.

(** * C66 *)
(** Every request gets an item of its own, for every schedule: the k-th item handed over is the one with index k (in the
    segment in use at the time; an expansion keeps the indices, C50). *)
Theorem C66_items_once b ls s : grun (ginit b) ls = Some s -> indices s = seq 0 (List.length (g_got s)).
Proof.
  intros E. destruct (grun_inv _ _ _ (ginit_inv b) E) as [[SO _ _ (l & GL & _) _] _]. assert (O := so_out _ SO).
  assert (X : map snd (map snd (p_out (g_seg s))) = seq 0 (handed (g_seg s))) by (rewrite map_map; auto). rewrite GL, map_app in X.
  unfold indices. rewrite <- (map_map snd snd). rewrite <- (map_length snd (g_got s)), <- (map_length snd (map snd (g_got s))).
  revert X. generalize (map snd (map snd (g_got s))). intros a X. assert (LE : List.length a <= handed (g_seg s)) by (apply (f_equal (@List.length nat)) in X; rewrite app_length, seq_length in X; lia).
  apply (f_equal (firstn (List.length a))) in X. rewrite firstn_app, Nat.sub_diag, firstn_all, firstn_O, app_nil_r in X. rewrite X. clear - LE. rewrite firstn_length, seq_length. replace (Nat.min (List.length a) (handed (g_seg s))) with (List.length a) by lia.
  revert LE. generalize (List.length a) (handed (g_seg s)). intros n m LE. replace m with (n + (m - n)) by lia. rewrite seq_app, firstn_app, seq_length, Nat.sub_diag, firstn_O, app_nil_r. rewrite <- (seq_length n 0) at 1. apply firstn_all.
Qed.
(** The managing goroutine never waits while it serves a request: no deadlock (contrast C37_progress_refuted). From every
    state a waiting goroutine gets its item by at most 12 steps of the managing goroutine alone. *)
Lemma served t : forall k s, ginv s -> g_req s = Some t -> rank (g_seg s) <= k -> exists n s' a, n <= k /\ grun s (repeat None n) = Some s' /\ ginv s' /\ g_mgr s' = g_mgr s /\ g_req s' = None /\ g_pcs s' = gupd (g_pcs s) t (GHave a) /\ g_got s' = g_got s ++ [(t, a)].
Proof.
  induction k as [|k IH]; intros s I R LE.
  - exfalso. assert (B := gi_busy _ I t R). unfold busy_ok in B. unfold rank in LE. destruct (p_pcs (g_seg s) 0); try lia; try contradiction; [destruct (p_init _)|]; try destruct (_ <? _); lia.
  - destruct (mgr_step s t I R) as (s1 & E & I1 & M1 & [(R1 & a & P1 & G1)|(R1 & P1 & G1 & RK)]).
    + exists 1, s1, a. split; [lia|]. cbn [repeat grun gstep]. rewrite E. auto 10.
    + destruct (IH s1 I1 R1) as (n & s' & a & LN & E' & I' & M' & R' & P' & G'); [lia|]. exists (S n), s', a. split; [lia|]. cbn [repeat grun gstep]. rewrite E. split; auto. split; auto. split; [congruence|]. rewrite P', G', P1, G1. auto.
Qed.
Lemma rank_12 s : rank s <= 12.
Proof. unfold rank. destruct (p_pcs s 0); try lia; [destruct (p_init s)|]; try destruct (_ <? _); lia. Qed.
Lemma grun_app l1 : forall s l2, grun s (l1 ++ l2) = match grun s l1 with Some s' => grun s' l2 | None => None end.
Proof. induction l1 as [|t l1 IH]; intros s l2; cbn [grun app]; auto. destruct (gstep s t); auto. Qed.
(** A goroutine that wants an item gets it after at most 25 steps of the managing goroutine and itself, whatever state
    the others are in: the request being served, if any, is finished first. *)
Theorem C66_progress ls s t : grun (ginit true) ls = Some s -> g_pcs s t = GSend \/ g_pcs s t = GWait ->
  exists ls' s' a, List.length ls' <= 25 /\ (forall l, In l ls' -> l = None \/ l = Some t) /\ grun s ls' = Some s' /\ g_pcs s' t = GHave a /\ In (t, a) (g_got s').
Proof.
  intros E H. destruct (grun_inv _ _ _ (ginit_inv true) E) as [I M]. cbn [ginit g_mgr] in M.
  assert (ON : forall n (l : option nat), In l (repeat None n) -> l = None \/ l = Some t) by (intros n l X; apply repeat_spec in X; auto).
  assert (FIN : forall s0, ginv s0 -> g_req s0 = Some t -> exists n s' a, n <= 12 /\ grun s0 (repeat None n) = Some s' /\ g_pcs s' t = GHave a /\ In (t, a) (g_got s')).
  { intros s0 I0 R0. destruct (served t 12 s0 I0 R0 (rank_12 _)) as (n & s' & a & LN & E' & _ & _ & _ & P' & G'). exists n, s', a. split; auto. split; auto. rewrite P', G'. unfold gupd. rewrite Nat.eqb_refl. split; auto. apply in_app_iff. right. left. auto. }
  assert (SEND : forall s0, ginv s0 -> g_mgr s0 = true -> g_req s0 = None -> g_pcs s0 t = GSend -> exists n s' a, n <= 12 /\ grun s0 (Some t :: repeat None n) = Some s' /\ g_pcs s' t = GHave a /\ In (t, a) (g_got s')).
  { intros s0 I0 M0 R0 P0. set (s1 := mkG (g_mgr s0) (pgo (g_seg s0) 0 PStart) (Some t) (gupd (g_pcs s0) t GWait) (g_got s0)).
    assert (E1 : gstep s0 (Some t) = Some s1) by (cbn [gstep]; unfold gstep_; rewrite P0, M0, R0; unfold s1; rewrite M0; auto).
    destruct (ginv_step _ _ _ I0 E1) as [I1 _]. destruct (FIN s1 I1 eq_refl) as (n & s' & a & LN & E' & X). exists n, s', a. split; auto. split; [|auto]. cbn [grun]. rewrite E1. auto. }
  destruct H as [H|H].
  - destruct (g_req s) as [u|] eqn:R.
    + destruct (served u 12 s I R (rank_12 _)) as (n & s1 & b & LN & E1 & I1 & M1 & R1 & P1 & G1). assert (UT : u <> t) by (intros ->; apply (gi_wait _ I) in R; congruence).
      destruct (SEND s1 I1) as (m & s' & a & LM & E' & X); auto; [congruence|rewrite P1; unfold gupd; destruct (Nat.eqb_spec t u); [congruence|auto]|].
      exists (repeat None n ++ Some t :: repeat None m), s', a. split; [rewrite app_length; cbn [List.length]; rewrite !repeat_length; lia|]. split; [|split; [rewrite grun_app, E1; auto|auto]].
      intros l X'. apply in_app_iff in X'. destruct X' as [X'|[<-|X']]; eauto.
    + destruct (SEND s I M R H) as (m & s' & a & LM & E' & X). exists (Some t :: repeat None m), s', a. split; [cbn [List.length]; rewrite repeat_length; lia|]. split; [intros l [<-|X']; eauto|auto].
  - apply (gi_wait _ I) in H. destruct (FIN s I H) as (n & s' & a & LN & E' & X). exists (repeat None n), s', a. split; [rewrite repeat_length; lia|]. split; [apply ON|auto].
Qed.
(** If the switch is turned on only after UsePool(true), nobody receives: a Set of a new key never returns. *)
Theorem C66_without_manager ls s t ls' s' : grun (ginit false) ls = Some s -> g_pcs s t = GSend -> grun s ls' = Some s' -> g_pcs s' t = GSend.
Proof.
  intros E P E'. destruct (grun_inv _ _ _ (ginit_inv false) E) as [_ M]. cbn [ginit g_mgr] in M.
  assert (R : g_req s = None).
  { assert (G : forall l s0 s1, g_mgr s0 = false -> g_req s0 = None -> grun s0 l = Some s1 -> g_req s1 = None).
    { induction l as [|x l IH]; intros s0 s1 M0 R0 E0; cbn [grun] in E0; [injection E0 as <-; auto|]. destruct x as [u|]; cbn [gstep] in E0; [|unfold mstep in E0; rewrite R0 in E0; discriminate E0]. unfold gstep_ in E0. rewrite M0 in E0. destruct (g_pcs s0 u); try discriminate E0; eapply IH; try exact E0; auto. }
    eapply G; try exact E; auto. }
  clear E. revert s M R P E'. induction ls' as [|x l IH]; intros s M R P E'; cbn [grun] in E'; [injection E' as <-; auto|].
  destruct x as [u|]; cbn [gstep] in E'; [|unfold mstep in E'; rewrite R in E'; discriminate E']. unfold gstep_ in E'. rewrite M in E'.
  assert (U : u <> t -> forall p, gupd (g_pcs s) u p t = GSend) by (intros N p; unfold gupd; destruct (Nat.eqb_spec t u); [congruence|auto]).
  destruct (g_pcs s u) eqn:Q; try discriminate E'; (eapply IH; try exact E'; auto; cbn [g_pcs]; apply U; congruence).
Qed.

(** * The hypotheses are met *)
(** goroutines 1, 2 and 3 ask at once; 1 is served while 2 and 3 wait to send *)
Definition three_asks : list (option nat) := [Some 1; Some 2; Some 3; Some 2] ++ repeat None 8 ++ [Some 1] ++ repeat None 3.
Example C66_case : match grun (ginit true) three_asks with Some s => (map (g_pcs s) [1;2;3], g_got s) | None => ([], []) end = ([GWait; GHave (1, 0); GSend], [(2, (1, 0))]).
Proof. vm_compute. reflexivity. Qed.
(** 130 requests one after another: two expansions; the last item is in the third segment *)
Fixpoint asks (n : nat) (s : gstate) : gstate :=
  match n with
  | O => s
  | S m => let run1 := fun s l => match gstep s l with Some s' => s' | None => s end in
           asks m (fold_left run1 ([Some 1; Some 1] ++ repeat None 12 ++ [Some 1]) s)
  end.
Example C66_expand_case : last (g_got (asks 130 (ginit true))) (0, (0, 0)) = (1, (3, 129)) /\ List.length (g_got (asks 130 (ginit true))) = 130.
Proof. vm_compute. auto. Qed.
Example C66_blocked_case : match grun (ginit false) [Some 1] with Some s => g_pcs s 1 | None => GIdle end = GSend.
Proof. reflexivity. Qed.
Print Assumptions C66_items_once.
Print Assumptions C66_progress.
Print Assumptions C66_without_manager.
