(** The freshly created map satisfies the invariant. *)
From Verif Require Import Base BaseProofs Util UtilProofs Bucket TrieProofs TrieInv TrieGrow LevelList MapModel ItemProofs MapInv.
From Coq Require Import ZifyBool Sorted.
Local Open Scope Z_scope.

Lemma present_in t n : present t n -> In n (map fst t).
Proof.
  unfold present, lvl, bget. induction t as [|[m b] t IH]; cbn [tget map fst]; [cbn; congruence|].
  destruct (nid_eqb m n) eqn:E; [apply nid_eqb_eq in E; left; auto|right; auto].
Qed.

(** adjacent pairs of a list *)
Fixpoint pairs {A} (l : list A) : list (A * A) :=
  match l with x :: ((y :: _) as l') => (x, y) :: pairs l' | _ => [] end.
Lemma pairs_in {A} (a : list A) x c b : In (x, c) (pairs (a ++ x :: c :: b)).
Proof. induction a as [|y a IH]; [left; auto|]. cbn [app]. destruct a; [right; left; auto|right; apply IH]. Qed.

Definition init_names : list nid := bmax :: map top idx16.
Lemma init_present n : present init_trie n -> In n init_names.
Proof. intros H. apply present_in in H. unfold init_names. exact H. Qed.

Ltac each H := repeat (destruct H as [H|H]; [|]); [..|destruct H].

Lemma init_trie_ok : trie_ok init_trie init_bl.
Proof.
  constructor.
  - vm_compute. auto.
  - intros l v H N. apply init_present in H. destruct H as [H|H]; [congruence|].
    cbn in H. each H; injection H as <- <-; (split; [lia|]); (split; [rewrite W64_val; lia|]);
      (split; [rewrite sz_1; match goal with |- (_ | ?x) => exists (x / 16 ^ 15); reflexivity end|]);
      vm_compute; repeat split; congruence.
  - intros l v H N. apply init_present in H. destruct H as [H|H]; [congruence|].
    cbn in H. each H; injection H as <- <-; intros K; vm_compute in K; discriminate.
  - intros l v H N. apply init_present in H. destruct H as [H|H]; [congruence|].
    cbn in H. each H; injection H as <- <-; lia.
  - intros l v H N. apply init_present in H. destruct H as [H|H]; [congruence|].
    cbn in H. each H; injection H as <- <-; right; (split; [left; auto|]); (split; [reflexivity|]); vm_compute; tauto.
  - intros i Hi. assert (E : i = 0 \/ i = 1 \/ i = 2 \/ i = 3 \/ i = 4 \/ i = 5 \/ i = 6 \/ i = 7 \/ i = 8 \/ i = 9 \/
      i = 10 \/ i = 11 \/ i = 12 \/ i = 13 \/ i = 14 \/ i = 15) by lia.
    repeat (destruct E as [->|E]; [vm_compute; discriminate|]). subst. vm_compute; discriminate.
  - intros n H. cbn in H. each H; subst; vm_compute; split; congruence.
  - eexists. split; [reflexivity|]. intros H. vm_compute in H. each H; discriminate.
  - repeat constructor; vm_compute; reflexivity.
  - intros a x c b E. pose proof (pairs_in a x c b) as H. rewrite <- E in H. clear E.
    cbn in H. exists 60. split; [lia|].
    each H; injection H as <- <-; (split; [vm_compute; reflexivity|]).
    all: split; [match goal with |- (_ | ?y) => exists (y / 2 ^ 60); vm_compute; reflexivity end|].
    all: intros l H1 H2; assert (l = 1) as -> by lia; vm_compute; discriminate.
Qed.

Lemma init_lvok : lvok init_trie init_lv.
Proof.
  split; [reflexivity|]. intros l Hl.
  assert (E : lv_get init_lv l = if l =? 1 then rev (map top idx16) else if l =? 16 then [bmax] else []).
  { assert (H : l = 1 \/ l = 2 \/ l = 3 \/ l = 4 \/ l = 5 \/ l = 6 \/ l = 7 \/ l = 8 \/ l = 9 \/ l = 10 \/ l = 11 \/ l = 12 \/ l = 13 \/ l = 14 \/ l = 15 \/ l = 16) by lia.
    repeat (destruct H as [->|H]; [reflexivity|]). subst. reflexivity. }
  assert (LI : forall n, In n init_names -> lvl init_trie n = if nid_eqb n bmax then 16 else 1).
  { intros n Hn. unfold init_names in Hn. cbn in Hn. destruct Hn as [<-|Hn]; [reflexivity|]. each Hn; subst n; vm_compute; reflexivity. }
  assert (PI : forall n, In n init_names -> present init_trie n) by (intros n Hn; unfold present; rewrite (LI n Hn); destruct (nid_eqb _ _); lia).
  assert (BN : ~ In bmax (map top idx16)) by (intros H; vm_compute in H; each H; discriminate).
  rewrite E. clear E. split.
  - destruct (l =? 1); [apply NoDup_rev; cbn; repeat (constructor; [intros H; cbn in H; each H; discriminate|]); constructor|]. destruct (l =? 16); repeat constructor. intros [].
  - intros n. split.
    + intros H. assert (HI : In n init_names).
      { unfold init_names. destruct (l =? 1); [right; apply in_rev; auto|]. destruct (l =? 16); [destruct H as [<-|[]]; left; auto|destruct H]. }
      split; auto. rewrite (LI n HI). destruct (Z.eqb_spec l 1) as [->|N1]; [|destruct (Z.eqb_spec l 16) as [->|N2]; [destruct H as [<-|[]]; reflexivity|destruct H]].
      destruct (nid_eqb n bmax) eqn:EB; auto. apply nid_eqb_eq in EB. subst n. apply in_rev in H. contradiction.
    + intros [HP HL]. apply init_present in HP. rewrite (LI n HP) in HL. destruct HP as [<-|HP].
      * rewrite nid_eqb_refl in HL. subst l. left; auto.
      * destruct (nid_eqb n bmax) eqn:EB; [apply nid_eqb_eq in EB; subst n; contradiction|]. subst l. cbn [Z.eqb Pos.eqb]. apply in_rev in HP. exact HP.
Qed.
Theorem new_map_sinv view max mode pool : sinv (new_map view max mode pool).
Proof.
  constructor; cbn [new_map m_items m_trie m_bl m_lv].
  - repeat constructor; vm_compute; discriminate.
  - apply init_trie_ok.
  - reflexivity.
  - intros e n H Hn. cbn in H. each H; subst e; cbn in Hn; injection Hn as <-; vm_compute; reflexivity.
  - apply init_lvok.
  - intros e H Hn. cbn in H. each H; subst e; discriminate.
Qed.
