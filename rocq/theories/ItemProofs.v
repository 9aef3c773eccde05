(** Facts about the item list and the searches in it (MapModel.v). *)
From Verif Require Import Base BaseProofs Util UtilProofs Bucket TrieProofs TrieInv TrieGrow MapModel.
From Coq Require Import ZifyBool Sorted.
Local Open Scope Z_scope.

Definition rle (a b : entry) : Prop := e_rev a <= e_rev b.
Definition rsorted (l : list entry) : Prop := StronglySorted rle l.
Definition live (e : entry) : bool := negb (ignored e).
Definition is_dummy (e : entry) : bool := match e_dummy e with Some _ => true | None => false end.
Definition dummies (l : list entry) : list nid :=
  flat_map (fun e => match e_dummy e with Some n => [n] | None => [] end) l.

(** * Sorted lists *)
Lemma sorted_app {A} (R : A -> A -> Prop) l1 l2 :
  StronglySorted R (l1 ++ l2) <->
  StronglySorted R l1 /\ StronglySorted R l2 /\ (forall a b, In a l1 -> In b l2 -> R a b).
Proof.
  induction l1 as [|x l1 IH]; cbn [app].
  - split; [intros H; repeat split; auto; [constructor|intros a b []]|intros (_ & H & _); auto].
  - split.
    + intros H. inversion H as [|? ? S F]; subst. apply IH in S as (S1 & S2 & S3).
      rewrite Forall_app in F. destruct F as [F1 F2]. repeat split; auto.
      * constructor; auto.
      * intros a b [<-|Ha] Hb; auto. rewrite Forall_forall in F2. auto.
    + intros (S1 & S2 & S3). inversion S1 as [|? ? S F]; subst. constructor.
      * apply IH. repeat split; auto. intros a b Ha Hb. apply S3; [right|]; auto.
      * rewrite Forall_app. split; auto. rewrite Forall_forall. intros b Hb. apply S3; [left|]; auto.
Qed.

Lemma dummies_app l1 l2 : dummies (l1 ++ l2) = dummies l1 ++ dummies l2.
Proof. apply flat_map_app. Qed.
Lemma in_dummies n l : In n (dummies l) <-> exists e, In e l /\ e_dummy e = Some n.
Proof.
  unfold dummies. rewrite in_flat_map. split; intros (e & He & H); exists e; split; auto.
  - destruct (e_dummy e); [destruct H as [->|[]]; auto|destruct H].
  - rewrite H. left; auto.
Qed.

Lemma unzip_eq l r : unzip (l, r) = rev l ++ r.
Proof. unfold unzip. cbn. apply rev_append_rev. Qed.

(** * seek *)
Lemma seek_spec n r : forall l z, seek n l r = Some z ->
  exists mid d r', r = mid ++ d :: r' /\ z = (rev mid ++ l, d :: r') /\ e_dummy d = Some n.
Proof.
  induction r as [|e r IH]; intros l z; cbn [seek]; [discriminate|].
  destruct (e_dummy e) as [m|] eqn:Em.
  - destruct (nid_eqb m n) eqn:E.
    + intros H; inversion H; subst. apply nid_eqb_eq in E; subst m. exists [], e, r. auto.
    + intros H. destruct (IH _ _ H) as (mid & d & r' & -> & -> & Hd).
      exists (e :: mid), d, r'. cbn [rev app]. rewrite <- app_assoc. auto.
  - intros H. destruct (IH _ _ H) as (mid & d & r' & -> & -> & Hd).
    exists (e :: mid), d, r'. cbn [rev app]. rewrite <- app_assoc. auto.
Qed.
Lemma seek_some n r : forall l, In n (dummies r) -> exists z, seek n l r = Some z.
Proof.
  induction r as [|e r IH]; intros l; cbn [dummies flat_map seek]; [intros []|].
  destruct (e_dummy e) as [m|] eqn:Em; cbn [app].
  - intros [->|H].
    + rewrite nid_eqb_refl. eauto.
    + destruct (nid_eqb m n); eauto.
  - intros H. eauto.
Qed.
Lemma seek_none n r : forall l, ~ In n (dummies r) -> seek n l r = None.
Proof.
  intros l H. destruct (seek n l r) as [z|] eqn:E; auto. exfalso. apply H.
  destruct (seek_spec _ _ _ _ E) as (mid & d & r' & -> & _ & Hd).
  apply in_dummies. exists d. split; auto. apply in_or_app; right; left; auto.
Qed.

(** * scans *)
Lemma scan_fwd_some rv r : forall l z, scan_fwd rv l r = Some z ->
  exists mid e r', r = mid ++ e :: r' /\ z = (rev mid ++ l, e :: r') /\ live e = true /\ e_rev e = rv.
Proof.
  induction r as [|e r IH]; intros l z; cbn [scan_fwd]; [discriminate|].
  destruct (ignored e || (e_rev e <? rv)) eqn:C.
  - intros H. destruct (IH _ _ H) as (mid & x & r' & -> & -> & L & R).
    exists (e :: mid), x, r'. cbn [rev app]. rewrite <- app_assoc. auto.
  - apply orb_false_iff in C as [C1 C2].
    destruct (Z.eqb_spec (e_rev e) rv); [|discriminate].
    intros H; inversion H; subst. exists [], e, r. unfold live. rewrite C1. auto.
Qed.
Lemma scan_fwd_none rv r : forall l, rsorted r -> scan_fwd rv l r = None ->
  forall e, In e r -> live e = true -> e_rev e <> rv.
Proof.
  induction r as [|x r IH]; intros l S; cbn [scan_fwd]; [intros _ e []|].
  inversion S as [|? ? S1 F]; subst. rewrite Forall_forall in F.
  destruct (ignored x || (e_rev x <? rv)) eqn:C.
  - intros H e [<-|He] HL.
    + unfold live in HL. apply negb_true_iff in HL. rewrite HL in C. cbn in C. lia.
    + eapply IH; eauto.
  - apply orb_false_iff in C as [C1 C2].
    destruct (Z.eqb_spec (e_rev x) rv); [discriminate|].
    intros _ e [<-|He] HL; auto. specialize (F e He). unfold rle in F. lia.
Qed.
Lemma scan_bwd_some rv l : forall r z, scan_bwd rv l r = Some z ->
  exists mid e l', l = mid ++ e :: l' /\ z = (l', e :: rev mid ++ r) /\ live e = true /\ e_rev e = rv.
Proof.
  induction l as [|e l IH]; intros r z; cbn [scan_bwd]; [discriminate|].
  destruct (ignored e || (rv <? e_rev e)) eqn:C.
  - intros H. destruct (IH _ _ H) as (mid & x & l' & -> & -> & L & R).
    exists (e :: mid), x, l'. cbn [rev app]. rewrite <- app_assoc. auto.
  - apply orb_false_iff in C as [C1 C2].
    destruct (Z.eqb_spec (e_rev e) rv); [|discriminate].
    intros H; inversion H; subst. exists [], e, l. unfold live. rewrite C1. auto.
Qed.
Lemma scan_bwd_none rv l : forall r, rsorted (rev l) -> scan_bwd rv l r = None ->
  forall e, In e l -> live e = true -> e_rev e <> rv.
Proof.
  induction l as [|x l IH]; intros r S; cbn [scan_bwd]; [intros _ e []|].
  cbn [rev] in S. apply sorted_app in S as (S1 & _ & S3).
  destruct (ignored x || (rv <? e_rev x)) eqn:C.
  - intros H e [<-|He] HL.
    + unfold live in HL. apply negb_true_iff in HL. rewrite HL in C. cbn in C. lia.
    + eapply IH; eauto.
  - apply orb_false_iff in C as [C1 C2].
    destruct (Z.eqb_spec (e_rev x) rv); [discriminate|].
    intros _ e [<-|He] HL; auto.
    assert (rle e x) by (apply S3; [apply in_rev in He; auto|left; auto]). unfold rle in *. lia.
Qed.

(** * find_ge / find_gt *)
Lemma find_ge_spec x r : forall l z, find_ge x l r = Some z ->
  exists mid e r', r = mid ++ e :: r' /\ z = (rev mid ++ l, e :: r') /\ x <= e_rev e /\
    Forall (fun y => e_rev y < x) mid.
Proof.
  induction r as [|e r IH]; intros l z; cbn [find_ge]; [discriminate|].
  destruct (Z.leb_spec x (e_rev e)).
  - intros E; inversion E; subst. exists [], e, r. auto.
  - intros E. destruct (IH _ _ E) as (mid & y & r' & -> & -> & L & F).
    exists (e :: mid), y, r'. cbn [rev app]. rewrite <- app_assoc. auto.
Qed.
Lemma find_ge_none x r : forall l, find_ge x l r = None -> forall e, In e r -> e_rev e < x.
Proof.
  induction r as [|e r IH]; intros l; cbn [find_ge]; [intros _ e []|].
  destruct (Z.leb_spec x (e_rev e)); [discriminate|].
  intros E y [<-|Hy]; eauto.
Qed.
Lemma find_gt_spec x r : forall l z, find_gt x l r = Some z ->
  exists mid e r', r = mid ++ e :: r' /\ z = (rev mid ++ l, e :: r') /\ x < e_rev e /\
    Forall (fun y => e_rev y <= x) mid.
Proof.
  induction r as [|e r IH]; intros l z; cbn [find_gt]; [discriminate|].
  destruct (Z.ltb_spec x (e_rev e)).
  - intros E; inversion E; subst. exists [], e, r. auto.
  - intros E. destruct (IH _ _ E) as (mid & y & r' & -> & -> & L & F).
    exists (e :: mid), y, r'. cbn [rev app]. rewrite <- app_assoc. auto.
Qed.
Lemma find_gt_none x r : forall l, find_gt x l r = None -> forall e, In e r -> e_rev e <= x.
Proof.
  induction r as [|e r IH]; intros l; cbn [find_gt]; [intros _ e []|].
  destruct (Z.ltb_spec x (e_rev e)); [discriminate|].
  intros E y [<-|Hy]; eauto.
Qed.

(** * Insertion behind all entries that are not larger *)
Fixpoint ins_sorted (e : entry) (l : list entry) : list entry :=
  match l with
  | [] => [e]
  | x :: l' => if e_rev e <? e_rev x then e :: l else x :: ins_sorted e l'
  end.

Lemma ins_sorted_split e l : rsorted l -> exists l1 l2,
  l = l1 ++ l2 /\ ins_sorted e l = l1 ++ e :: l2 /\
  Forall (fun y => e_rev y <= e_rev e) l1 /\ Forall (fun y => e_rev e < e_rev y) l2.
Proof.
  induction l as [|x l IH]; intros S; cbn [ins_sorted].
  - exists [], []. auto.
  - inversion S as [|? ? S1 F]; subst. rewrite Forall_forall in F.
    destruct (Z.ltb_spec (e_rev e) (e_rev x)).
    + exists [], (x :: l). repeat split; auto. constructor; auto.
      apply Forall_forall. intros y Hy. specialize (F y Hy). unfold rle in F. lia.
    + destruct (IH S1) as (l1 & l2 & -> & -> & F1 & F2).
      exists (x :: l1), l2. repeat split; auto.
Qed.
Lemma ins_sorted_app e l1 l2 :
  Forall (fun y => e_rev y <= e_rev e) l1 -> Forall (fun y => e_rev e < e_rev y) l2 ->
  ins_sorted e (l1 ++ l2) = l1 ++ e :: l2.
Proof.
  intros F1 F2. induction F1 as [|x l1 Hx F1 IH]; cbn [app ins_sorted].
  - destruct F2 as [|y l2 Hy F2]; cbn [ins_sorted]; auto.
    destruct (Z.ltb_spec (e_rev e) (e_rev y)); [auto|lia].
  - destruct (Z.ltb_spec (e_rev e) (e_rev x)); [lia|]. rewrite IH; auto.
Qed.
Lemma ins_sorted_sorted e l : rsorted l -> rsorted (ins_sorted e l).
Proof.
  intros S. destruct (ins_sorted_split e l S) as (l1 & l2 & E & -> & F1 & F2). subst l.
  apply sorted_app in S as (S1 & S2 & S3). rewrite Forall_forall in *.
  apply sorted_app. repeat split; auto.
  - constructor; auto. apply Forall_forall. intros y Hy. specialize (F2 y Hy). unfold rle. lia.
  - intros a b Ha [<-|Hb]; auto. apply F1; auto.
Qed.
Lemma ins_sorted_in e l x : In x (ins_sorted e l) <-> x = e \/ In x l.
Proof.
  induction l as [|y l IH]; cbn [ins_sorted].
  - cbn. intuition.
  - destruct (e_rev e <? e_rev y); cbn; [intuition|]. rewrite IH. intuition.
Qed.

(** checked_insert of something whose right neighbour is strictly larger *)
Lemma checked_insert_some z e z' : checked_insert z e = Some z' ->
  z' = (fst z, e :: snd z) /\ (exists r rs, snd z = r :: rs /\ e_rev e <= e_rev r) /\
  (fst z = [] \/ exists p ps, fst z = p :: ps /\ e_rev p <= e_rev e).
Proof.
  unfold checked_insert. destruct z as [l r]; cbn [fst snd].
  destruct r as [|x r]; [discriminate|].
  destruct (Z.ltb_spec (e_rev x) (e_rev e)); [discriminate|].
  destruct l as [|p l].
  - intros E; inversion E; subst. split; auto. split; eauto.
  - destruct (Z.ltb_spec (e_rev e) (e_rev p)); [discriminate|].
    intros E; inversion E; subst. split; auto. split; eauto.
Qed.

(** Inserting at a position reached by find_gt is insertion in order. *)
Lemma insert_gt_sorted items e z z' : rsorted items -> unzip z = items ->
  (exists r rs, snd z = r :: rs /\ e_rev e < e_rev r) ->
  checked_insert z e = Some z' -> unzip z' = ins_sorted e items.
Proof.
  intros S U (r & rs & Er & Hr) H. apply checked_insert_some in H as (-> & _ & Hl).
  destruct z as [l r0]; cbn [fst snd] in *. subst r0. rewrite unzip_eq in *.
  subst items. apply sorted_app in S as (S1 & S2 & S3).
  symmetry. apply ins_sorted_app.
  - destruct Hl as [->|(p & ps & -> & Hp)]; [constructor|].
    cbn [rev] in *. apply sorted_app in S1 as (_ & _ & S4).
    apply Forall_app. split; [|repeat constructor; auto].
    apply Forall_forall. intros y Hy. specialize (S4 y p Hy (or_introl eq_refl)). unfold rle in S4. lia.
  - inversion S2 as [|? ? S4 F]; subst. constructor; auto.
    eapply Forall_impl; [|exact F]. unfold rle. cbn. intros; lia.
Qed.
(** If the position is right the check accepts. *)
Lemma checked_insert_ok l r rs e : e_rev e <= e_rev r -> (forall p, In p l -> e_rev p <= e_rev e) ->
  checked_insert (l, r :: rs) e = Some (l, e :: r :: rs).
Proof.
  intros H1 H2. unfold checked_insert. cbn [fst snd].
  destruct (Z.ltb_spec (e_rev r) (e_rev e)); [lia|].
  destruct l as [|p l]; auto. specialize (H2 p (or_introl eq_refl)).
  destruct (Z.ltb_spec (e_rev e) (e_rev p)); [lia|auto].
Qed.

(** * Hidden entries *)
(** Every live entry at position rv precedes every dummy at rv. *)
Definition clear (rv : Z) (l : list entry) : Prop := exists A B, l = A ++ B /\
  (forall e, In e B -> live e = true -> e_rev e <> rv) /\
  (forall d, In d A -> is_dummy d = true -> e_rev d <> rv).
Definition at_rv (rv : Z) (e : entry) : bool := live e && (e_rev e =? rv).
Definition live_at (rv : Z) (l : list entry) : list entry := filter (at_rv rv) l.

Lemma clear_no_dummy rv l : (forall d, In d l -> is_dummy d = true -> e_rev d <> rv) -> clear rv l.
Proof. intros H. exists l, []. rewrite app_nil_r. repeat split; auto. Qed.
Lemma clear_no_live rv l : live_at rv l = [] -> clear rv l.
Proof.
  intros H. exists [], l. repeat split; auto.
  intros e He HL E. assert (In e (live_at rv l)).
  { apply filter_In. split; auto. unfold at_rv. rewrite HL, E, Z.eqb_refl. auto. }
  rewrite H in H0. destruct H0.
Qed.
Lemma app_eq_split {A} (a b c d : list A) : a ++ b = c ++ d ->
  (exists x, c = a ++ x /\ b = x ++ d) \/ (exists x, a = c ++ x /\ d = x ++ b).
Proof.
  revert c. induction a as [|y a IH]; intros c; cbn [app].
  - intros H. left. exists c. auto.
  - destruct c as [|z c]; cbn [app].
    + intros H. right. exists (y :: a). cbn. auto.
    + intros H. inversion H; subst. destruct (IH c H2) as [(x & -> & ->)|(x & -> & ->)].
      * left. exists x. auto.
      * right. exists x. auto.
Qed.
Lemma clear_insert rv l1 l2 e : clear rv (l1 ++ l2) -> e_rev e <> rv -> clear rv (l1 ++ e :: l2).
Proof.
  intros (A & B & E & HB & HA) He.
  apply app_eq_split in E as [(x & -> & ->)|(x & -> & ->)].
  - exists (l1 ++ e :: x), B. rewrite <- app_assoc. repeat split; auto.
    intros d Hd. rewrite in_app_iff in Hd. destruct Hd as [Hd|[<-|Hd]]; auto;
      apply HA; apply in_or_app; auto.
  - exists A, (x ++ e :: l2). rewrite <- app_assoc. repeat split; auto.
    intros d Hd. rewrite in_app_iff in Hd. destruct Hd as [Hd|[<-|Hd]]; auto;
      apply HB; apply in_or_app; auto.
Qed.
Lemma clear_ins_other rv e l : rsorted l -> clear rv l -> e_rev e <> rv -> clear rv (ins_sorted e l).
Proof.
  intros S C H. destruct (ins_sorted_split e l S) as (l1 & l2 & E & -> & _). subst l.
  apply clear_insert; auto.
Qed.
Lemma clear_ins_dummy rv d l : rsorted l -> clear rv l -> is_dummy d = true ->
  (forall x, In x l -> is_dummy x = true -> e_rev x <> e_rev d) -> clear rv (ins_sorted d l).
Proof.
  intros S C Hd Hn. destruct (Z.eq_dec (e_rev d) rv) as [E|N]; [|apply clear_ins_other; auto].
  destruct (ins_sorted_split d l S) as (l1 & l2 & -> & -> & F1 & F2).
  exists l1, (d :: l2). rewrite Forall_forall in *. repeat split; auto.
  - intros e [<-|He] HL.
    + exfalso. unfold live, ignored, is_dummy in *. destruct (e_dummy d); discriminate.
    + specialize (F2 e He). lia.
  - intros x Hx Hxd. rewrite <- E. apply Hn; auto. apply in_or_app; auto.
Qed.
Lemma live_at_ins rv e l : 
  live_at rv (ins_sorted e l) = live_at rv l \/ at_rv rv e = true.
Proof.
  destruct (at_rv rv e) eqn:Ea; auto. left.
  induction l as [|x l IH]; cbn [ins_sorted live_at filter].
  - rewrite Ea. auto.
  - destruct (e_rev e <? e_rev x); cbn [live_at filter].
    + rewrite Ea. auto.
    + unfold live_at in IH. rewrite IH. auto.
Qed.
Lemma live_at_ins_other rv e l : at_rv rv e = false -> live_at rv (ins_sorted e l) = live_at rv l.
Proof. intros H. destruct (live_at_ins rv e l); auto. congruence. Qed.
Lemma live_at_ins_empty rv e l : at_rv rv e = true -> live_at rv l = [] -> live_at rv (ins_sorted e l) = [e].
Proof.
  intros Ha. induction l as [|x l IH]; cbn [ins_sorted live_at filter].
  - rewrite Ha; auto.
  - destruct (at_rv rv x) eqn:Ex; [discriminate|]. intros H.
    destruct (e_rev e <? e_rev x); cbn [live_at filter]; rewrite ?Ha, ?Ex, ?H; auto.
Qed.

(** * Replacing one entry *)
Lemma live_at_replace rv l e e' r : at_rv rv e = at_rv rv e' -> 
  live_at rv (l ++ e' :: r) = live_at rv l ++ (if at_rv rv e then [e'] else []) ++ live_at rv r.
Proof.
  intros H. unfold live_at. rewrite filter_app. cbn [filter]. rewrite H. destruct (at_rv rv e'); auto.
Qed.

Lemma filter_singleton {A} (f : A -> bool) l1 x l2 : f x = true ->
  (List.length (filter f (l1 ++ x :: l2)) <= 1)%nat -> filter f l1 = [] /\ filter f l2 = [].
Proof.
  intros Hx. rewrite filter_app. cbn [filter]. rewrite Hx, app_length. cbn [List.length].
  destruct (filter f l1), (filter f l2); cbn [List.length]; auto; lia.
Qed.

(** insertion of a name into a list of names by reverse *)
Fixpoint ins_name (t : trie) (y : nid) (rv : Z) (l : list nid) : list nid :=
  match l with
  | [] => [y]
  | n :: l' => if rv <? brev t n then y :: l else n :: ins_name t y rv l'
  end.
Lemma ins_name_app t y rv l1 l2 :
  (forall n, In n l1 -> brev t n <= rv) -> (forall n, In n l2 -> rv < brev t n) ->
  ins_name t y rv (l1 ++ l2) = l1 ++ y :: l2.
Proof.
  intros H1 H2. induction l1 as [|x l1 IH]; cbn [app ins_name].
  - destruct l2 as [|x l2]; cbn [ins_name]; auto.
    specialize (H2 x (or_introl eq_refl)). destruct (Z.ltb_spec rv (brev t x)); [auto|lia].
  - pose proof (H1 x (or_introl eq_refl)). destruct (Z.ltb_spec rv (brev t x)); [lia|].
    rewrite IH; auto. intros n Hn. apply H1. right; auto.
Qed.
Lemma dummies_ins t d y l : rsorted l -> e_dummy d = Some y ->
  (forall e n, In e l -> e_dummy e = Some n -> e_rev e = brev t n) ->
  dummies (ins_sorted d l) = ins_name t y (e_rev d) (dummies l).
Proof.
  intros S Hd. induction l as [|x l IH]; cbn [ins_sorted]; intros HR.
  - unfold dummies. cbn. rewrite Hd. auto.
  - inversion S as [|? ? S1 F]; subst. rewrite Forall_forall in F.
    assert (HR' : forall e n, In e l -> e_dummy e = Some n -> e_rev e = brev t n)
      by (intros e n He; apply HR; right; auto).
    destruct (Z.ltb_spec (e_rev d) (e_rev x)) as [Hlt|Hge].
    + (* all dummies of x :: l are larger *)
      assert (A : dummies (d :: x :: l) = y :: dummies (x :: l)).
      { unfold dummies. cbn [flat_map]. rewrite Hd. auto. }
      rewrite A. symmetry. refine (ins_name_app t y (e_rev d) [] (dummies (x :: l)) _ _); [intros n []|].
      intros n Hn. apply in_dummies in Hn as (e & He & E). rewrite <- (HR e n He E).
      destruct He as [<-|He]; auto. specialize (F e He). unfold rle in F. lia.
    + unfold dummies in *. cbn [flat_map]. destruct (e_dummy x) as [n|] eqn:En; cbn [app].
      * cbn [ins_name]. rewrite <- (HR x n (or_introl eq_refl) En).
        destruct (Z.ltb_spec (e_rev d) (e_rev x)); [lia|]. f_equal. apply IH; auto.
      * apply IH; auto.
Qed.
Lemma dummies_ins_item e l : e_dummy e = None -> dummies (ins_sorted e l) = dummies l.
Proof.
  intros H. induction l as [|x l IH]; cbn [ins_sorted].
  - unfold dummies. cbn. rewrite H. auto.
  - destruct (e_rev e <? e_rev x); unfold dummies in *; cbn [flat_map].
    + rewrite H. auto.
    + rewrite IH. auto.
Qed.
