(** Decision procedures for the hypotheses of the property theorems, used only to show that
    concrete histories satisfy them. *)
From Verif Require Import Base BaseProofs Util Bucket MapModel Spec MapMore.
Local Open Scope Z_scope.

Definition fresh_b (o : op) : bool :=
  match o with OpStore i => (i_rev i =? 0) && (i_conf i =? 0) && negb (i_del i) | _ => true end.
Lemma fresh_b_ok o : fresh_b o = true -> fresh_item o.
Proof.
  destruct o as [| i | | | | | | |]; cbn; auto. rewrite !andb_true_iff, !Z.eqb_eq, negb_true_iff. tauto.
Qed.
Lemma fresh_all os : forallb fresh_b os = true -> Forall fresh_item os.
Proof. rewrite forallb_forall, Forall_forall. auto using fresh_b_ok. Qed.

Definition k_ok (k : Z) : bool := negb (k =? 2 ^ 63 - 1) && negb (k =? 2 ^ 64 - 1).
Definition safe_b (h : hashes) (o : op) : bool :=
  match o, writes h o with
  | OpStore i, Some (k, _) => ((i_rev i =? 0) && k_ok k) || ((0 <? i_rev i) && (i_rev i <=? 2 ^ 64 - 3))
  | _, Some (k, _) => k_ok k
  | _, None => true
  end.
Lemma k_ok_ok k : k_ok k = true -> k <> 2 ^ 63 - 1 /\ k <> 2 ^ 64 - 1.
Proof. unfold k_ok. rewrite andb_true_iff, !negb_true_iff, !Z.eqb_neq. tauto. Qed.
Lemma safe_b_ok h o : safe_b h o = true -> safe_op h o.
Proof.
  unfold safe_b, safe_op. destruct o as [| i | | | | | | |]; destruct (writes h _) as [[kk cc]|]; auto using k_ok_ok.
  rewrite orb_true_iff, !andb_true_iff, Z.eqb_eq, Z.ltb_lt, Z.leb_le. intros [[H1 H2]|[H1 H2]]; [left|right]; auto.
  apply k_ok_ok in H2. tauto.
Qed.
Lemma safe_all h os : forallb (safe_b h) os = true -> Forall (safe_op h) os.
Proof. rewrite forallb_forall, Forall_forall. auto using safe_b_ok. Qed.

Definition inb (x : Z) (l : list Z) : bool := existsb (Z.eqb x) l.
Lemma inb_not x l : negb (inb x l) = true -> ~ In x l.
Proof.
  rewrite negb_true_iff. intros H I. assert (inb x l = true); [|congruence].
  apply existsb_exists. exists x. rewrite Z.eqb_refl. auto.
Qed.

Fixpoint clean_b (h : hashes) (s : mstate) (k c : Z) (os : list op) : bool :=
  match os with
  | [] => true
  | o :: os' =>
      match writes h o with
      | Some (k1, c1) => negb (k1 =? k) ||
          ((c1 =? c) && (negb (inb (reverse64 k) (dump_bucket s)) ||
             match snd (step h s (OpGetByHash k c)) with RVal _ true => true | _ => false end))
      | None => true
      end && clean_b h (fst (step h s o)) k c os'
  end.
Lemma clean_b_ok h k c os : forall s, clean_b h s k c os = true -> clean h s k c os.
Proof.
  induction os as [|o os IH]; intros s; cbn [clean_b clean]; auto. rewrite andb_true_iff. intros [H1 H2].
  split; [|auto]. intros k1 c1 W ->. rewrite W, Z.eqb_refl in H1. cbn [negb orb] in H1.
  apply andb_true_iff in H1 as [H1 H3]. apply Z.eqb_eq in H1. split; auto.
  apply orb_true_iff in H3 as [H3|H3]; [left; apply inb_not; auto|right].
  destruct (snd (step h s (OpGetByHash k c))) as [|v [|]| | |]; try discriminate. eauto.
Qed.

Definition none_b {A} (x : option A) : bool := match x with None => true | Some _ => false end.
Fixpoint cov_b (h : hashes) (s : mstate) (m : smap) (ws : list (Z * Z)) (os : list op) : bool :=
  match os with
  | [] => true
  | o :: os' =>
      fresh_b o &&
      match writes h o with
      | Some (k, c) => negb (none_b (sm_map m (k, c))) ||
          (negb (inb (reverse64 k) (dump_bucket s)) &&
           forallb (fun p => negb (fst p =? k) || none_b (sm_map m p)) ws && k_ok k)
      | None => true
      end && cov_b h (fst (step h s o)) (fst (sm_step h m o))
                     (match writes h o with Some p => p :: ws | None => ws end) os'
  end.
Lemma sm_dom h m o ws : (forall p, sm_map m p <> None -> In p ws) -> forall p, sm_map (fst (sm_step h m o)) p <> None ->
  In p (match writes h o with Some p => p :: ws | None => ws end).
Proof.
  intros H p.
  assert (U : forall q b v, writes h o = Some q -> sm_map (fst (sm_update m q b v)) p <> None ->
                In p (match writes h o with Some p => p :: ws | None => ws end)).
  { intros q b v W. rewrite W. unfold sm_update. destruct (assign _ _ _) as [[v' ok]|]; cbn [fst sm_map]; [|right; auto].
    unfold sm_put. destruct (pair_eqb q p) eqn:E; [apply pair_eqb_eq in E; left; auto|right; auto]. }
  destruct o as [key v|i|key|k c|key|k c|key|key|]; cbn [sm_step writes] in *; auto.
  - destruct (key_to_hash h key) as [q|] eqn:K; auto. destruct (sm_map m q) as [b|] eqn:M; [apply (U q); auto|].
    assert (In q (q :: ws) /\ (sm_map m p <> None -> In p (q :: ws))) as [A B] by (split; [left; auto|right; auto]).
    destruct key; auto. cbn [fst sm_map]. unfold sm_put.
    destruct (pair_eqb q p) eqn:E; [apply pair_eqb_eq in E; subst; auto|auto].
  - destruct (key_to_hash h (i_key i)) as [q|] eqn:K; auto. destruct (sm_map m q) as [b|] eqn:M; [apply (U q); auto|].
    cbn [fst sm_map]. unfold sm_put. destruct (pair_eqb q p) eqn:E; [apply pair_eqb_eq in E; left; auto|right; auto].
  - destruct (key_to_hash h key) as [q|] eqn:K; auto. destruct (sm_map m q) as [b|] eqn:M; auto.
    cbn [fst sm_map]. unfold sm_put. destruct (pair_eqb q p); [congruence|auto].
  - destruct (key_to_hash h key) as [q|] eqn:K; auto. destruct (sm_map m q) as [b|] eqn:M; auto.
    cbn [fst sm_map]. unfold sm_put. destruct (pair_eqb q p); [congruence|auto].
Qed.
Lemma cov_b_ok h os : forall s m ws, (forall p, sm_map m p <> None -> In p ws) ->
  cov_b h s m ws os = true -> all_covered h s m os.
Proof.
  induction os as [|o os IH]; intros s m ws D; cbn [cov_b all_covered]; auto.
  rewrite !andb_true_iff. intros [[F C] R]. split; [|eapply IH; [|exact R]; apply sm_dom; auto].
  split; [apply fresh_b_ok; auto|]. destruct (writes h o) as [[k c]|]; auto.
  apply orb_true_iff in C as [C|C].
  - left. destruct (sm_map m (k, c)); [discriminate|discriminate C].
  - right. rewrite !andb_true_iff in C. destruct C as [[C1 C2] C3]. split; [apply inb_not; auto|].
    split; [|apply k_ok_ok; auto]. intros c'. destruct (sm_map m (k, c')) eqn:E; auto. exfalso.
    assert (X : In (k, c') ws) by (apply D; congruence).
    rewrite forallb_forall in C2. specialize (C2 _ X). cbn [fst] in C2. rewrite Z.eqb_refl, E in C2. discriminate C2.
Qed.
Lemma cov_new h view max mode pool os : cov_b h (new_map view max mode pool) (sm_empty view) [] os = true ->
  all_covered h (new_map view max mode pool) (sm_empty view) os.
Proof. apply cov_b_ok. intros p X. exfalso. apply X. reflexivity. Qed.

Ltac safe_tac := apply safe_all; vm_compute; reflexivity.
Ltac fresh_tac := apply fresh_all; vm_compute; reflexivity.
Ltac clean_tac := apply clean_b_ok; vm_compute; reflexivity.
Ltac cov_tac := apply cov_new; vm_compute; reflexivity.
