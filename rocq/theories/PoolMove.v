(** Where the items of a default map with UsePool are stored, one call at a time: pool2.go Get and _expand, with the
    address of every item. C50.

    Simplification: an item keeps only its address, (segment, index). elist_head.RepaireSliceAfterCopy, an external
    library, is taken to do what it is for: the map reads the copies from then on (pool2.go:316-343). *)
From Verif Require Import Base Util UtilProofs PropUtil.
Local Open Scope Z_scope.
Local Open Scope list_scope.

Notation addr := (nat * Z)%type.
(** segment in use, its len and cap, the addresses at which the map has the items, oldest first *)
Record vstate := mkV { v_seg : nat; v_len : Z; v_cap : Z; v_live : list addr }.
(** pool2.go:141-154, first Get *)
Definition vinit : vstate := mkV 0 0 64 [].
(** pool2.go:286-363: the items are copied to a new segment, same indices *)
Definition vexpand (s : vstate) : vstate := mkV (S (v_seg s)) (v_len s) (pool_cap (v_len s)) (map (fun a => (S (v_seg s), snd a)) (v_live s)).
(** pool2.go:218-246 *)
Definition vtake (s : vstate) : vstate := mkV (v_seg s) (v_len s + 1) (v_cap s) (v_live s ++ [(v_seg s, v_len s)]).
(** pool2.go:199-266, called for every new key (map.go:648-656) *)
Definition valloc (s : vstate) : vstate := if v_cap s <=? v_len s then vtake (vexpand s) else vtake s.
Fixpoint vallocs (n : nat) (s : vstate) : vstate := match n with O => s | S m => vallocs m (valloc s) end.

(** the item of the j-th new key is at p *)
Definition item_at (s : vstate) (j : nat) (p : addr) : Prop := nth_error (v_live s) j = Some p.

(** The claim: the address of an item does not change while items are added. *)
Definition items_stay : Prop := forall n m j p, item_at (vallocs n vinit) j p -> item_at (vallocs m (vallocs n vinit)) j p.
Theorem C50_items_stay_refuted : ~ items_stay.
Proof.
  intros H. assert (X : item_at (vallocs 64 vinit) 0 (0%nat, 0)) by (vm_compute; reflexivity). specialize (H 64%nat 1%nat 0%nat (0%nat, 0) X).
  vm_compute in H. discriminate H.
Qed.
Print Assumptions C50_items_stay_refuted.

Record vok (s : vstate) : Prop := {
  vo_len : v_len s = Z.of_nat (List.length (v_live s));
  vo_cap : v_len s <= v_cap s;
  vo_seg : forall p, In p (v_live s) -> fst p = v_seg s;
  vo_idx : forall j p, item_at s j p -> snd p = Z.of_nat j }.
Lemma vtake_ok s : vok s -> v_len s < v_cap s -> vok (vtake s).
Proof.
  intros [A B C D] L. constructor; cbn [v_len v_cap v_seg v_live vtake].
  - rewrite app_length. cbn [List.length]. lia.
  - lia.
  - intros p H. apply in_app_or in H as [H|[<-|[]]]; auto.
  - intros j p. unfold item_at. cbn [v_live vtake]. intros H. destruct (Nat.lt_ge_cases j (List.length (v_live s))) as [X|X].
    + rewrite nth_error_app1 in H by auto. apply D; auto.
    + rewrite nth_error_app2 in H by auto. destruct (j - List.length (v_live s))%nat eqn:Q; [|cbn [nth_error] in H; destruct n; discriminate H]. cbn in H. injection H as <-. cbn [snd]. lia.
Qed.
Lemma vexpand_ok s : vok s -> vok (vexpand s) /\ v_len (vexpand s) < v_cap (vexpand s).
Proof.
  intros [A B C D]. assert (P : v_len s < pool_cap (v_len s)) by (apply C03_pool_cap_grows; lia). split; [constructor|]; cbn [v_len v_cap v_seg v_live vexpand]; try lia.
  - rewrite map_length. auto.
  - intros p H. apply in_map_iff in H as (q & <- & _). auto.
  - intros j p. unfold item_at in *. cbn [v_live vexpand]. rewrite nth_error_map. specialize (D j). destruct (nth_error (v_live s) j) as [q|]; cbn [option_map]; [|intros X; discriminate X]. intros [= <-]. cbn [snd]. apply D; auto.
Qed.
Lemma valloc_ok s : vok s -> vok (valloc s).
Proof.
  intros H. unfold valloc. destruct (v_cap s <=? v_len s) eqn:E.
  - destruct (vexpand_ok s H). apply vtake_ok; auto.
  - apply vtake_ok; auto. lia.
Qed.
Lemma vallocs_ok n : forall s, vok s -> vok (vallocs n s).
Proof. induction n; intros s H; cbn [vallocs]; auto using valloc_ok. Qed.
Lemma vinit_ok : vok vinit.
Proof. constructor; cbn; auto; try lia; try contradiction. intros [|j] p X; discriminate X. Qed.
Lemma valloc_seg s : (v_seg s <= v_seg (valloc s))%nat.
Proof. unfold valloc. destruct (_ <=? _); cbn; lia. Qed.
Lemma vallocs_seg n : forall s, (v_seg s <= v_seg (vallocs n s))%nat.
Proof. induction n as [|n IH]; intros s; cbn [vallocs]; [lia|]. specialize (IH (valloc s)). pose proof (valloc_seg s). lia. Qed.
Lemma valloc_len s : List.length (v_live (valloc s)) = S (List.length (v_live s)).
Proof. unfold valloc. destruct (_ <=? _); cbn [v_live vtake vexpand]; rewrite app_length, ?map_length; cbn [List.length]; lia. Qed.
Lemma vallocs_len n : forall s, List.length (v_live (vallocs n s)) = (n + List.length (v_live s))%nat.
Proof. induction n as [|n IH]; intros s; cbn [vallocs]; auto. rewrite IH, valloc_len. lia. Qed.
(** The exact law: an item that was at p is there exactly until the pool next expands, and never again after. *)
Theorem C50_until_expansion n m j p : item_at (vallocs n vinit) j p ->
  (item_at (vallocs m (vallocs n vinit)) j p <-> v_seg (vallocs m (vallocs n vinit)) = v_seg (vallocs n vinit)).
Proof.
  set (s := vallocs n vinit). assert (O : vok s) by (apply vallocs_ok, vinit_ok). clearbody s. intros H. pose proof (vallocs_ok m s O) as O'. assert (LJ : (j < List.length (v_live s))%nat) by (apply nth_error_Some; unfold item_at in H; congruence).
  destruct (nth_error (v_live (vallocs m s)) j) as [q|] eqn:E.
  - pose proof (vo_idx _ O' j q E) as I1. pose proof (vo_idx _ O j p H) as I2. pose proof (vo_seg _ O' q (nth_error_In _ _ E)) as S1. pose proof (vo_seg _ O p (nth_error_In _ _ H)) as S2. unfold item_at.
    rewrite E. split.
    + intros [= <-]. congruence.
    + intros Q. f_equal. destruct p, q. cbn [fst snd] in *. congruence.
  - exfalso. apply nth_error_None in E. rewrite vallocs_len in E. lia.
Qed.
Print Assumptions C50_until_expansion.
(** The pool of a new map expands first when its 65th item is added. *)
Lemma vstay n : forall s, v_len s + Z.of_nat n <= v_cap s -> v_seg (vallocs n s) = v_seg s /\ v_len (vallocs n s) = v_len s + Z.of_nat n /\ v_cap (vallocs n s) = v_cap s.
Proof.
  induction n as [|n IH]; intros s L; cbn [vallocs]; [lia|]. assert (E : valloc s = vtake s) by (unfold valloc; destruct (Z.leb_spec (v_cap s) (v_len s)); [lia|auto]).
  destruct (IH (valloc s)) as (A & B & C); rewrite E in *; cbn [v_len v_cap v_seg vtake] in *; lia.
Qed.
Theorem C50_first_expansion n : v_seg (vallocs n vinit) = 0%nat <-> (n <= 64)%nat.
Proof.
  split; intros H.
  - destruct (Nat.le_gt_cases n 64) as [L|L]; auto. exfalso. replace n with (65 + (n - 65))%nat in H by lia. revert H. generalize (n - 65)%nat. intros k H.
    assert (X : forall a b s, vallocs (a + b) s = vallocs b (vallocs a s)) by (induction a; intros; cbn [vallocs Nat.add]; auto). rewrite X in H.
    pose proof (vallocs_seg k (vallocs 65 vinit)) as G. assert (v_seg (vallocs 65 vinit) = 1%nat) by (vm_compute; reflexivity). lia.
  - destruct (vstay n vinit) as (A & _); [cbn [v_len v_cap vinit]; lia|]. exact A.
Qed.
Print Assumptions C50_first_expansion.
Example C50_case : item_at (vallocs 64 vinit) 5 (0%nat, 5) /\ v_seg (vallocs 1 (vallocs 64 vinit)) <> v_seg (vallocs 64 vinit) /\ item_at (vallocs 1 (vallocs 64 vinit)) 5 (1%nat, 5).
Proof. split; [vm_compute; reflexivity|]. split; [vm_compute; discriminate|vm_compute; reflexivity]. Qed.
