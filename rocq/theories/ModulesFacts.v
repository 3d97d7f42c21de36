(** * Facts about modules on a shared mesh (C67) *)
From Coq Require Import String List Bool Arith ZArith Reals Lia.
From Verif Require Import Names FEVector StateMgr Modules.
Import ListNotations.
Local Open Scope string_scope.
Set Default Proof Using "Type".

Section Facts.
Variables V G : Type.
Variables (prolong scatter : V -> G) (restrict_ : G -> V) (zero : V).
Notation mgr := (mgr V G). Notation disk := (string -> Z -> option (coll G)). Notation module := (module V).
Ltac logic := try clear prolong; try clear scatter; try clear restrict_; try clear zero; tauto.
Notation Done := StateMgr.Done. Notation inv := (StateMgr.inv V G).

(** ** what the manager knows only grows *)
Record grows (m m' : mgr) : Prop := {
  gr_started : started m = true -> started m' = true;
  gr_restart : restart m = true -> restart m' = true;
  gr_states : forall n p, assoc n (named_states m) = Some p -> assoc n (named_states m') = Some p;
  gr_duals : forall n p, assoc n (named_duals m) = Some p -> assoc n (named_duals m') = Some p;
  gr_mesh : forall tag a, mesh m tag = Done a -> mesh m' tag = Done a;
  gr_shapes : forall tag v, assoc tag (shapes m) = Some v -> exists v', assoc tag (shapes m') = Some v' }.
Lemma grows_refl m : grows m m.
Proof. constructor; eauto. Qed.
Lemma grows_trans a b c : grows a b -> grows b c -> grows a c.
Proof. intros [A1 A2 A3 A4 A5 A6] [B1 B2 B3 B4 B5 B6]. constructor; auto. intros tag v H. destruct (A6 tag v H) as [v' H']. eauto. Qed.
Lemma put_grows {A} n (q : A) l : assoc n l = None -> forall k p, assoc k l = Some p -> assoc k (put n q l) = Some p.
Proof. intros N k p H. rewrite assoc_put_other; [exact H|congruence]. Qed.
Lemma mesh_set m tag c f s d t : assoc tag (colls m) = Some c -> mesh (set_fields V G m tag c f s d) t = mesh m t.
Proof. intros E. unfold mesh. cbn [set_fields colls]. destruct (string_dec t tag) as [->|N]; [rewrite assoc_put_same, E; reflexivity|now rewrite assoc_put_other]. Qed.
Lemma grows_set m tag c f s d : assoc tag (colls m) = Some c -> (forall k p, assoc k (named_states m) = Some p -> assoc k s = Some p) -> (forall k p, assoc k (named_duals m) = Some p -> assoc k d = Some p) ->
  grows m (set_fields V G m tag c f s d).
Proof. intros E S D. constructor; cbn [set_fields started restart named_states named_duals shapes]; eauto. intros t a H. now rewrite mesh_set. Qed.
Lemma has_state_none (m : mgr) n : has_state m n = false -> assoc n (named_states m) = None.
Proof. unfold has_state. destruct (assoc n (named_states m)); [discriminate|reflexivity]. Qed.
Lemma has_dual_none (m : mgr) n : has_dual m n = false -> assoc n (named_duals m) = None.
Proof. unfold has_dual. destruct (assoc n (named_duals m)); [discriminate|reflexivity]. Qed.
Lemma mesh_find (m : mgr) tag a : inv m -> mesh m tag = Done a -> find_mesh G a (colls m) = Some tag.
Proof. intros I. unfold mesh. destruct (assoc tag (colls m)) as [c|] eqn:E; [|discriminate]. intros H. injection H as <-. exact (v_addr V G m I tag c E). Qed.

Lemma nodup_app {A} : forall l1 l2 : list A, NoDup l1 -> NoDup l2 -> (forall x, In x l1 -> ~ In x l2) -> NoDup (l1 ++ l2).
Proof.
  induction l1 as [|x l1 IH]; intros l2 N1 N2 D; cbn [app]; [exact N2|]. inversion N1 as [|? ? Nx N1']; subst. constructor.
  - rewrite in_app_iff. intros [Q|Q]; [exact (Nx Q)|exact (D x (or_introl eq_refl) Q)].
  - apply IH; auto. intros y Hy. apply D. now right.
Qed.
Lemma nodup_app_disjoint {A} : forall l1 l2 : list A, NoDup (l1 ++ l2) -> forall x, In x l1 -> ~ In x l2.
Proof.
  induction l1 as [|y l1 IH]; intros l2 N x Hx; [destruct Hx|]. inversion N as [|? ? Ny N']; subst. destruct Hx as [<-|Hx]; [intros Q; apply Ny; rewrite in_app_iff; now right|exact (IH l2 N' x Hx)].
Qed.
(** ** creating fields *)
Record creates (m m' : mgr) (tag : string) (ss ds : list string) : Prop := {
  cr_inv : inv m';
  cr_grows : grows m m';
  cr_keeps : forall t k g, field m t k = Some g -> field m' t k = Some g;
  cr_shapes : shapes m' = shapes m;
  cr_mesh : forall t, mesh m' t = mesh m t;
  cr_restart : restart m' = restart m;
  cr_states : forall n, In n ss -> assoc n (named_states m) = None /\ assoc n (named_states m') = Some (tag, n);
  cr_duals : forall n, In n ds -> assoc n (named_duals m) = None /\ assoc n (named_duals m') = Some (tag, n);
  cr_frame : forall t k, ~ (t = tag /\ (In k ss \/ In k ds)) -> field m' t k = field m t k;
  cr_saved : restart m = true -> forall t k, field m' t k = field m t k;
  cr_fresh : restart m = false -> (forall n, In n ss \/ In n ds -> field m tag n = None) /\ (forall n, In n ss -> ~ In n ds);
  cr_made : forall n, In n ss \/ In n ds -> exists g, field m' tag n = Some g;
  cr_nodup : NoDup ss }.
Lemma creates_nil m tag : inv m -> creates m m tag [] [].
Proof. intros I. constructor; auto using grows_refl; try constructor; cbn [In]; intros; logic. Qed.
Lemma creates_app a b c tag s1 d1 s2 d2 : creates a b tag s1 d1 -> creates b c tag s2 d2 -> creates a c tag (s1 ++ s2) (d1 ++ d2).
Proof.
  intros A B. constructor.
  - exact (cr_inv _ _ _ _ _ B).
  - exact (grows_trans _ _ _ (cr_grows _ _ _ _ _ A) (cr_grows _ _ _ _ _ B)).
  - intros t k g H. apply (cr_keeps _ _ _ _ _ B), (cr_keeps _ _ _ _ _ A), H.
  - rewrite (cr_shapes _ _ _ _ _ B). exact (cr_shapes _ _ _ _ _ A).
  - intros t. rewrite (cr_mesh _ _ _ _ _ B). exact (cr_mesh _ _ _ _ _ A t).
  - rewrite (cr_restart _ _ _ _ _ B). exact (cr_restart _ _ _ _ _ A).
  - intros n H. apply in_app_or in H. destruct H as [H|H].
    + destruct (cr_states _ _ _ _ _ A n H) as [H1 H2]. split; [exact H1|]. exact (gr_states _ _ (cr_grows _ _ _ _ _ B) _ _ H2).
    + destruct (cr_states _ _ _ _ _ B n H) as [H1 H2]. split; [|exact H2]. destruct (assoc n (named_states a)) as [p|] eqn:E; [|reflexivity].
      rewrite (gr_states _ _ (cr_grows _ _ _ _ _ A) _ _ E) in H1. discriminate.
  - intros n H. apply in_app_or in H. destruct H as [H|H].
    + destruct (cr_duals _ _ _ _ _ A n H) as [H1 H2]. split; [exact H1|]. exact (gr_duals _ _ (cr_grows _ _ _ _ _ B) _ _ H2).
    + destruct (cr_duals _ _ _ _ _ B n H) as [H1 H2]. split; [|exact H2]. destruct (assoc n (named_duals a)) as [p|] eqn:E; [|reflexivity].
      rewrite (gr_duals _ _ (cr_grows _ _ _ _ _ A) _ _ E) in H1. discriminate.
  - intros t k H. rewrite (cr_frame _ _ _ _ _ B), (cr_frame _ _ _ _ _ A); [reflexivity| |]; intros [-> N]; apply H; (split; [reflexivity|]); rewrite !in_app_iff; logic.
  - intros Hr t k. rewrite (cr_saved _ _ _ _ _ B), (cr_saved _ _ _ _ _ A); auto. rewrite (cr_restart _ _ _ _ _ A). exact Hr.
  - intros Hr. destruct (cr_fresh _ _ _ _ _ A Hr) as [FA NA]. assert (Hr' : restart b = false) by (rewrite (cr_restart _ _ _ _ _ A); exact Hr).
    destruct (cr_fresh _ _ _ _ _ B Hr') as [FB NB]. split.
    + intros n H. rewrite !in_app_iff in H. assert (K : In n s1 \/ In n d1 \/ In n s2 \/ In n d2) by logic. clear H. destruct K as [K|[K|K]]; [apply FA; logic|apply FA; logic|].
      destruct (field a tag n) as [g|] eqn:E; [|reflexivity]. apply (cr_keeps _ _ _ _ _ A) in E. rewrite (FB n K) in E. discriminate.
    + intros n H1 H2. apply in_app_or in H1. apply in_app_or in H2. destruct H1 as [H1|H1], H2 as [H2|H2].
      * exact (NA n H1 H2).
      * destruct (cr_made _ _ _ _ _ A n (or_introl H1)) as [g E]. rewrite (FB n (or_intror H2)) in E. discriminate.
      * destruct (cr_made _ _ _ _ _ A n (or_intror H2)) as [g E]. rewrite (FB n (or_introl H1)) in E. discriminate.
      * exact (NB n H1 H2).
  - intros n H. rewrite !in_app_iff in H. assert (K : (In n s1 \/ In n d1) \/ (In n s2 \/ In n d2)) by logic. destruct K as [K|K].
    + destruct (cr_made _ _ _ _ _ A n K) as [g E]. exists g. exact (cr_keeps _ _ _ _ _ B _ _ _ E).
    + exact (cr_made _ _ _ _ _ B n K).
  - apply nodup_app; [exact (cr_nodup _ _ _ _ _ A)|exact (cr_nodup _ _ _ _ _ B)|]. intros n H1 H2. pose proof (proj2 (cr_states _ _ _ _ _ A n H1)) as Y. rewrite (proj1 (cr_states _ _ _ _ _ B n H2)) in Y. discriminate.
Qed.
Lemma entered_fields2 m m' tag n j v s d : entered V G restrict_ m m' tag n j v s d -> exists c f, assoc tag (colls m) = Some c /\ m' = set_fields V G m tag c f s d /\
  (forall k g, assoc k (fields c) = Some g -> assoc k f = Some g) /\ (forall k, k <> n -> assoc k f = assoc k (fields c)) /\ (exists g, assoc n f = Some g /\ v = restrict_ g) /\
  (restart m = true -> f = fields c) /\ (restart m = false -> assoc n (fields c) = None).
Proof.
  intros [c [E [_ [[Rs [g [Ef [Ev ->]]]]|[Rs [Ef [Ev ->]]]]]]].
  - exists c, (fields c). repeat split; auto; [eauto|intros; congruence].
  - exists c, (fields c ++ [(n, j)])%list. repeat split; auto.
    + intros k g H. now rewrite assoc_app, H.
    + intros k N. rewrite assoc_app, (proj2 (String.eqb_neq k n) N). destruct (assoc k (fields c)); reflexivity.
    + exists j. now rewrite assoc_app, Ef, String.eqb_refl.
    + intros; congruence.
Qed.
Lemma store_creates m a n j m' v tag : inv m -> mesh m tag = Done a -> store_state restrict_ m a n j = Done (m', v) ->
  creates m m' tag [n] [] /\ exists g, field m' tag n = Some g /\ v = restrict_ g.
Proof.
  intros I M H. pose proof (store_ok _ _ _ _ _ _ _ _ _ I H) as I'. destruct (store_state_inv _ _ _ _ _ _ _ _ _ H) as [tg [F [Hs En]]]. rewrite (mesh_find _ _ _ I M) in F. injection F as <-.
  apply has_state_none in Hs. destruct (entered_fields2 _ _ _ _ _ _ _ _ En) as [c [f [E [-> [K [O [[g [Eg Ev]] [R1 R2]]]]]]]].
  pose proof (fun t k => field_set V G m tag c f (put n (tag, n) (named_states m)) (named_duals m) t k E) as FS.
  assert (Fm : forall k, field m tag k = assoc k (fields c)) by (intros k; unfold field; now rewrite E). split.
  - constructor; auto.
    + apply grows_set; auto. apply put_grows. exact Hs.
    + intros t k g0 H0. rewrite FS. destruct (String.eqb_spec t tag) as [->|]; [apply K; rewrite <- Fm; exact H0|exact H0].
    + intros t. now apply mesh_set.
    + intros k [<-|[]]. split; [exact Hs|]. apply assoc_put_same.
    + intros k [].
    + intros t k N. rewrite FS. destruct (String.eqb_spec t tag) as [->|]; [|reflexivity]. rewrite Fm. apply O. intros ->. apply N. cbn [In]. logic.
    + intros Hr t k. rewrite FS. destruct (String.eqb_spec t tag) as [->|]; [|reflexivity]. rewrite Fm, (R1 Hr). reflexivity.
    + intros Hr. split; [|intros k _ []]. intros k [[<-|[]]|[]]. rewrite Fm. exact (R2 Hr).
    + intros k [[<-|[]]|[]]. rewrite FS, String.eqb_refl. eauto.
    + constructor; [intros []|constructor].
  - exists g. rewrite FS, String.eqb_refl. auto.
Qed.
Lemma dual_creates m a n j m' v tag : inv m -> mesh m tag = Done a -> store_dual restrict_ m a n j = Done (m', v) ->
  creates m m' tag [] [n] /\ exists g, field m' tag n = Some g /\ v = restrict_ g.
Proof.
  intros I M H. pose proof (dual_ok _ _ _ _ _ _ _ _ _ I H) as I'. destruct (store_dual_inv _ _ _ _ _ _ _ _ _ H) as [tg [F [Hs En]]]. rewrite (mesh_find _ _ _ I M) in F. injection F as <-.
  apply has_dual_none in Hs. destruct (entered_fields2 _ _ _ _ _ _ _ _ En) as [c [f [E [-> [K [O [[g [Eg Ev]] [R1 R2]]]]]]]].
  pose proof (fun t k => field_set V G m tag c f (named_states m) (put n (tag, n) (named_duals m)) t k E) as FS.
  assert (Fm : forall k, field m tag k = assoc k (fields c)) by (intros k; unfold field; now rewrite E). split.
  - constructor; auto.
    + apply grows_set; auto. apply put_grows. exact Hs.
    + intros t k g0 H0. rewrite FS. destruct (String.eqb_spec t tag) as [->|]; [apply K; rewrite <- Fm; exact H0|exact H0].
    + intros t. now apply mesh_set.
    + intros k [].
    + intros k [<-|[]]. split; [exact Hs|]. apply assoc_put_same.
    + intros t k N. rewrite FS. destruct (String.eqb_spec t tag) as [->|]; [|reflexivity]. rewrite Fm. apply O. intros ->. apply N. cbn [In]. logic.
    + intros Hr t k. rewrite FS. destruct (String.eqb_spec t tag) as [->|]; [|reflexivity]. rewrite Fm, (R1 Hr). reflexivity.
    + intros Hr. split; [|intros k []]. intros k [[]|[<-|[]]]. rewrite Fm. exact (R2 Hr).
    + intros k [[]|[<-|[]]]. rewrite FS, String.eqb_refl. eauto.
    + constructor.
  - exists g. rewrite FS, String.eqb_refl. auto.
Qed.
Lemma new_state_store (m m' : mgr) n tag j v : new_state restrict_ m n tag j = Done (m', v) -> exists a, mesh m tag = Done a /\ store_state restrict_ m a n j = Done (m', v).
Proof. unfold new_state. destruct (negb (started m)); [discriminate|]. destruct (mesh m tag) as [a| |]; try discriminate. destruct (has_state m n); [discriminate|]. eauto. Qed.
Lemma new_dual_store (m m' : mgr) n tag j v : new_dual restrict_ m n tag j = Done (m', v) -> exists a, mesh m tag = Done a /\ store_dual restrict_ m a n j = Done (m', v).
Proof. unfold new_dual. destruct (negb (started m)); [discriminate|]. destruct (mesh m tag) as [a| |]; try discriminate. destruct (has_dual m n); [discriminate|]. eauto. Qed.
Lemma make_states_creates tag junk : forall names m m', inv m -> make_states V G restrict_ m tag names junk = Done m' -> creates m m' tag names [].
Proof.
  induction names as [|n names IH]; intros m m' I H; cbn [make_states] in H; [injection H as <-; now apply creates_nil|].
  destruct (bind_done _ _ _ H) as [[m1 v] [H1 H2]]. cbn [fst] in H2. destruct (new_state_store _ _ _ _ _ _ H1) as [a [M S]].
  destruct (store_creates _ _ _ _ _ _ _ I M S) as [C _]. exact (creates_app _ _ _ _ [n] [] names [] C (IH _ _ (cr_inv _ _ _ _ _ C) H2)).
Qed.
Lemma make_duals_creates tag junk : forall names m m', inv m -> make_duals V G restrict_ m tag names junk = Done m' -> creates m m' tag [] names.
Proof.
  induction names as [|n names IH]; intros m m' I H; cbn [make_duals] in H; [injection H as <-; now apply creates_nil|].
  destruct (bind_done _ _ _ H) as [[m1 v] [H1 H2]]. cbn [fst] in H2. destruct (new_dual_store _ _ _ _ _ _ H1) as [a [M S]].
  destruct (dual_creates _ _ _ _ _ _ _ I M S) as [C _]. exact (creates_app _ _ _ _ [] [n] [] names C (IH _ _ (cr_inv _ _ _ _ _ C) H2)).
Qed.
Lemma make_params_creates tag a junk : forall names m m' sv dv sv' dv', inv m -> mesh m tag = Done a -> make_params V G restrict_ m a names junk sv dv = Done (m', sv', dv') ->
  creates m m' tag names (map sens names) /\ (forall n, ~ In n names -> sv' n = sv n) /\ (forall n, ~ In n (map sens names) -> dv' n = dv n) /\
  (forall n, In n names -> exists g, field m' tag n = Some g /\ sv' n = restrict_ g).
Proof.
  induction names as [|n names IH]; intros m m' sv dv sv' dv' I M H; cbn [make_params] in H.
  { injection H as <- <- <-. split; [now apply creates_nil|]. split; [auto|]. split; [auto|]. intros k []. }
  destruct (bind_done _ _ _ H) as [[m1 v1] [H1 H2]]. cbn [fst snd] in H2. destruct (bind_done _ _ _ H2) as [[m2 v2] [H3 H4]]. cbn [fst snd] in H4.
  destruct (store_creates _ _ _ _ _ _ _ I M H1) as [C1 [g1 [F1 E1]]]. pose proof (gr_mesh _ _ (cr_grows _ _ _ _ _ C1) _ _ M) as M1.
  destruct (dual_creates _ _ _ _ _ _ _ (cr_inv _ _ _ _ _ C1) M1 H3) as [C2 _]. pose proof (gr_mesh _ _ (cr_grows _ _ _ _ _ C2) _ _ M1) as M2.
  destruct (IH _ _ _ _ _ _ (cr_inv _ _ _ _ _ C2) M2 H4) as [C3 [S3 [D3 P3]]].
  pose proof (creates_app _ _ _ _ [n] [] [] [sens n] C1 C2) as C12. split; [exact (creates_app _ _ _ _ [n] [sens n] names (map sens names) C12 C3)|].
  split; [|split].
  - intros k N. cbn [In] in N. rewrite S3 by logic. apply upd_other. intros ->. logic.
  - intros k N. cbn [map In] in N. rewrite D3 by logic. apply upd_other. intros ->. logic.
  - intros k [<-|Hk]; [|exact (P3 k Hk)]. exists g1. split.
    + exact (cr_keeps _ _ _ _ _ C3 _ _ _ (cr_keeps _ _ _ _ _ C2 _ _ _ F1)).
    + rewrite S3; [rewrite upd_same; exact E1|]. intros Hn. destruct (cr_states _ _ _ _ _ C3 n Hn) as [N _].
      destruct (cr_states _ _ _ _ _ C12 n (or_introl eq_refl)) as [_ Y]. congruence.
Qed.

(** ** modules the manager knows *)
Definition registered (m : mgr) (d : module) : Prop :=
  started m = true /\ mesh m (m_tag V d) = Done (m_mesh V d) /\ (exists v, assoc (m_tag V d) (shapes m) = Some v) /\
  (forall n, In n (own_states V d) -> assoc n (named_states m) = Some (m_tag V d, n)) /\ (forall n, In n (own_duals V d) -> assoc n (named_duals m) = Some (m_tag V d, n)).
Definition shaped_all (m : mgr) : Prop := forall tag a, mesh m tag = Done a -> started m = true /\ (exists v, assoc tag (shapes m) = Some v) /\ assoc (shape_name tag) (named_states m) = Some (tag, shape_name tag).
Lemma registered_grows m m' d : grows m m' -> registered m d -> registered m' d.
Proof. intros [A1 _ A3 A4 A5 A6] [B1 [B2 [[v B3] [B4 B5]]]]. repeat split; eauto. Qed.

(** ** writing fields: a list of state and dual writes *)
Definition item := (bool * string * V)%type.
Definition iname (x : item) : string := snd (fst x).
Definition ival (x : item) : G := if fst (fst x) then scatter (snd x) else prolong (snd x).
Definition push1 (m : mgr) (x : item) : StateMgr.outcome mgr := if fst (fst x) then update_dual scatter m (iname x) (snd x) else update_state prolong m (iname x) (snd x).
Fixpoint push (m : mgr) (l : list item) : StateMgr.outcome mgr := match l with [] => Done m | x :: r => bind (push1 m x) (fun m' => push m' r) end.
Lemma bind_assoc {A B C} (x : StateMgr.outcome A) (f : A -> StateMgr.outcome B) (g : B -> StateMgr.outcome C) : bind (bind x f) g = bind x (fun a => bind (f a) g).
Proof. destruct x; reflexivity. Qed.
Lemma bind_ext {A B} (x : StateMgr.outcome A) (f g : A -> StateMgr.outcome B) : (forall a, x = Done a -> f a = g a) -> bind x f = bind x g.
Proof. destruct x; cbn [bind]; auto. Qed.
Lemma push_app l2 : forall l1 m, push m (l1 ++ l2) = bind (push m l1) (fun m' => push m' l2).
Proof. induction l1 as [|x l1 IH]; intros m; cbn [app push bind]; [reflexivity|]. rewrite bind_assoc. apply bind_ext. intros; apply IH. Qed.
Lemma push_states_push (val : string -> V) : forall names m, push_states V G prolong m val names = push m (map (fun n => (false, n, val n)) names).
Proof. induction names as [|n names IH]; intros m; cbn [push_states map push]; [reflexivity|]. apply bind_ext. intros; apply IH. Qed.
Lemma push_duals_push (val : string -> V) : forall names m, push_duals V G scatter m val names = push m (map (fun n => (true, n, val n)) names).
Proof. induction names as [|n names IH]; intros m; cbn [push_duals map push]; [reflexivity|]. apply bind_ext. intros; apply IH. Qed.
Lemma push_params_push (sv dv : string -> V) : forall names m, push_params V G prolong scatter m sv dv names = push m (flat_map (fun n => [(false, n, sv n); (true, sens n, dv (sens n))]) names).
Proof. induction names as [|n names IH]; intros m; cbn [push_params flat_map app push]; [reflexivity|]. apply bind_ext. intros m1 _. apply bind_ext. intros; apply IH. Qed.
Record pushed (m m' : mgr) (tag : string) (l : list item) : Prop := {
  wr_inv : inv m';
  wr_states : named_states m' = named_states m; wr_duals : named_duals m' = named_duals m; wr_shapes : shapes m' = shapes m;
  wr_started : started m' = started m; wr_restart : restart m' = restart m;
  wr_mesh : forall t, mesh m' t = mesh m t;
  wr_in : forall x, In x l -> (forall y, In y l -> iname y = iname x -> y = x) -> field m' tag (iname x) = Some (ival x);
  wr_out : forall t k, ~ (t = tag /\ In k (map iname l)) -> field m' t k = field m t k }.
Definition known (m : mgr) (tag : string) (x : item) : Prop := if fst (fst x) then assoc (iname x) (named_duals m) = Some (tag, iname x) else assoc (iname x) (named_states m) = Some (tag, iname x).
Lemma push1_ok m tag a x : inv m -> mesh m tag = Done a -> known m tag x -> exists m', push1 m x = Done m' /\ inv m' /\ named_states m' = named_states m /\ named_duals m' = named_duals m /\ shapes m' = shapes m /\
  started m' = started m /\ restart m' = restart m /\ (forall t, mesh m' t = mesh m t) /\ field m' tag (iname x) = Some (ival x) /\ (forall t k, (t, k) <> (tag, iname x) -> field m' t k = field m t k).
Proof.
  intros I M K. unfold mesh in M. destruct (assoc tag (colls m)) as [c|] eqn:E; [|discriminate].
  set (m' := set_fields V G m tag c (put (iname x) (ival x) (fields c)) (named_states m) (named_duals m)).
  assert (W : write_field V G m (tag, iname x) (ival x) = Done m') by (unfold write_field; cbn [fst snd]; now rewrite E). exists m'.
  assert (P : push1 m x = Done m') by (revert K W; unfold push1, known, ival; destruct (fst (fst x)); unfold update_dual, update_state; intros -> W; exact W).
  split; [exact P|]. split; [exact (write_ok V G _ _ _ _ I W)|]. repeat (split; [reflexivity|]). split; [intros t; now apply mesh_set|]. exact (write_field_effect V G _ _ _ _ _ W).
Qed.
Lemma push_ok tag a : forall l m, inv m -> mesh m tag = Done a -> (forall x, In x l -> known m tag x) -> exists m', push m l = Done m' /\ pushed m m' tag l.
Proof.
  induction l as [|x l IH]; intros m I M H.
  { exists m. split; [reflexivity|]. constructor; auto. intros x []. }
  destruct (push1_ok m tag a x I M (H x (or_introl eq_refl))) as [m1 [P1 [J1 [J2 [J3 [J4 [J5 [J6 [J7 [J8 J9]]]]]]]]]].
  destruct (IH m1 J1) as [m2 [P2 [B1 B2 B3 B4 B5 B6 B7 B8 B9]]].
  { now rewrite J7. }
  { intros y Hy. pose proof (H y (or_intror Hy)) as K. unfold known in *. now rewrite J2, J3. }
  exists m2. split; [cbn [push]; rewrite P1; exact P2|]. constructor; [exact B1|congruence|congruence|congruence|congruence|congruence|intros t; rewrite B7; apply J7| |].
  - intros y Hy U. destruct (in_dec string_dec (iname y) (map iname l)) as [K|K].
    + apply in_map_iff in K. destruct K as [z [Ez Hz]]. pose proof (U z (or_intror Hz) Ez) as ->. apply B8; [exact Hz|]. intros w Hw. apply U. now right.
    + rewrite B9 by logic. destruct Hy as [<-|Hy]; [exact J8|]. exfalso. apply K. now apply in_map.
  - intros t k N. cbn [map In] in N. rewrite B9, J9; auto; [intros Q; injection Q as -> ->; apply N; logic|intros [-> K]; apply N; logic].
Qed.

(** *** everything a module writes *)
Definition written (d : module) (shape : V) : list item :=
  map (fun n => (false, n, sval V d n)) (map (full V d) (listed (m_kind V d) (m_quasi V d))) ++ map (fun n => (true, n, dval V d n)) (map (full V d) (dual_fields (m_kind V d))) ++
  flat_map (fun n => [(false, n, sval V d n); (true, sens n, dval V d (sens n))]) (map (fun p => full V d (fst p)) (m_params V d)) ++
  [(false, shape_name (m_tag V d), shape); (true, shape_sens (m_name V d), dval V d (shape_sens (m_name V d)))].
Lemma bind_ret_shape (m m' : mgr) l tag (v : V) {B} (f : V -> StateMgr.outcome B) a : inv m -> mesh m tag = Done a -> (forall x, In x l -> known m tag x) -> push m l = Done m' -> assoc tag (shapes m) = Some v -> bind (shape_value V G m' tag) f = f v.
Proof. intros I M K P S. destruct (push_ok tag a l m I M K) as [m2 [P2 W]]. rewrite P in P2. injection P2 as ->. unfold shape_value. rewrite (wr_shapes _ _ _ _ W), S. reflexivity. Qed.
Lemma listed_primal k q f : In f (listed k q) -> In f (primal k).
Proof. destruct k, q; cbn; logic. Qed.
Lemma written_states d v n s : In (false, n, s) (written d v) -> (In n (own_states V d) /\ s = sval V d n) \/ (n = shape_name (m_tag V d) /\ s = v).
Proof.
  unfold written, own_states. rewrite !in_app_iff, in_flat_map. intros [H|[H|[[x [H1 H2]]|H]]].
  - apply in_map_iff in H. destruct H as [k [E H]]. injection E as <- <-. left. split; [|reflexivity]. left. apply in_map_iff in H. destruct H as [f [<- H]]. apply in_map. now apply listed_primal in H.
  - apply in_map_iff in H. destruct H as [k [E H]]. discriminate.
  - destruct H2 as [H2|[H2|[]]]; [|discriminate]. injection H2 as <- <-. left. split; [|reflexivity]. right. right. exact H1.
  - destruct H as [H|[H|[]]]; [|discriminate]. injection H as <- <-. now right.
Qed.
Lemma written_duals d v n s : In (true, n, s) (written d v) -> In n (own_duals V d) /\ s = dval V d n.
Proof.
  unfold written, own_duals. rewrite !in_app_iff, in_flat_map. cbn [In]. rewrite in_app_iff. intros [H|[H|[[x [H1 H2]]|H]]].
  - apply in_map_iff in H. destruct H as [k [E H]]. discriminate.
  - apply in_map_iff in H. destruct H as [k [E H]]. injection E as <- <-. auto.
  - destruct H2 as [H2|[H2|[]]]; [discriminate|]. injection H2 as <- <-. split; [|reflexivity]. right. right. apply in_map_iff in H1. destruct H1 as [p [<- H1]]. apply in_map_iff. now exists p.
  - destruct H as [H|[H|[]]]; [discriminate|]. injection H as <- <-. auto.
Qed.
Lemma written_known m d v : registered m d -> assoc (shape_name (m_tag V d)) (named_states m) = Some (m_tag V d, shape_name (m_tag V d)) -> forall x, In x (written d v) -> known m (m_tag V d) x.
Proof.
  intros [_ [_ [_ [RS RD]]]] SN [[[|] n] s] H; unfold known; cbn [fst snd iname].
  - destruct (written_duals _ _ _ _ H) as [H1 _]. exact (RD n H1).
  - destruct (written_states _ _ _ _ H) as [[H1 _]|[-> _]]; [exact (RS n H1)|exact SN].
Qed.
Lemma output_push m k d v a : inv m -> registered m d -> assoc (shape_name (m_tag V d)) (named_states m) = Some (m_tag V d, shape_name (m_tag V d)) -> assoc (m_tag V d) (shapes m) = Some v -> mesh m (m_tag V d) = Done a ->
  output_to_disk V G prolong scatter m k d = bind (push m (written d v)) (fun m' => save m' k (m_time V d) (m_cycle V d) (m_tag V d)).
Proof.
  intros I R SN S M. pose proof (written_known m d v R SN) as K. unfold output_to_disk, written in *.
  set (l1 := map (fun n => (false, n, sval V d n)) _) in *. set (l2 := map (fun n => (true, n, dval V d n)) _) in *. set (l3 := flat_map _ _) in *. rewrite push_states_push. fold l1.
  rewrite !push_app, bind_assoc. apply bind_ext. intros m1 P1. rewrite push_duals_push. fold l2. rewrite !push_app, bind_assoc. apply bind_ext. intros m2 P2. rewrite push_params_push. fold l3. rewrite push_app, bind_assoc. apply bind_ext. intros m3 P3.
  assert (P : push m (l1 ++ l2 ++ l3) = Done m3) by (rewrite push_app, P1; cbn [bind]; rewrite push_app, P2; exact P3).
  rewrite (bind_ret_shape m m3 (l1 ++ l2 ++ l3) (m_tag V d) v _ a I M); [|intros x Hx; apply K; rewrite !in_app_iff in *; logic|exact P|exact S].
  cbn [push]. rewrite bind_assoc. apply bind_ext. intros m4 _. rewrite bind_assoc. apply bind_ext. intros; reflexivity.
Qed.
Definition apart (d : module) : Prop := forall n, In n (shape_name (m_tag V d) :: own_states V d) -> ~ In n (own_duals V d).
Lemma output_ok m k d v : inv m -> registered m d -> assoc (shape_name (m_tag V d)) (named_states m) = Some (m_tag V d, shape_name (m_tag V d)) -> ~ In (shape_name (m_tag V d)) (own_states V d) ->
  assoc (m_tag V d) (shapes m) = Some v ->
  exists m' k' c, output_to_disk V G prolong scatter m k d = Done (m', k') /\ inv m' /\ grows m m' /\ shapes m' = shapes m /\
    k' (m_tag V d) (m_cycle V d) = Some c /\ ctime c = m_time V d /\ ccycle c = m_cycle V d /\ (forall n, assoc n (fields c) = field m' (m_tag V d) n) /\
    (forall t y, ~ (t = m_tag V d /\ y = m_cycle V d) -> k' t y = k t y) /\
    (apart d -> forall x, In x (written d v) -> field m' (m_tag V d) (iname x) = Some (ival x)) /\
    (forall t n, ~ (t = m_tag V d /\ In n (map iname (written d v))) -> field m' t n = field m t n).
Proof.
  intros I R SN NS S. destruct R as [R1 [R2 R3]]. rewrite (output_push m k d v (m_mesh V d) I (conj R1 (conj R2 R3)) SN S R2).
  destruct (push_ok (m_tag V d) (m_mesh V d) (written d v) m I R2 (written_known m d v (conj R1 (conj R2 R3)) SN)) as [m1 [P [J1 J2 J3 J4 J5 J6 J7 J8 J9]]]. rewrite P. cbn [bind].
  destruct (save m1 k (m_time V d) (m_cycle V d) (m_tag V d)) as [[m2 k2]| |] eqn:E.
  2,3: unfold save in E; rewrite J5, R1 in E; cbn [negb] in E; pose proof R2 as Q; rewrite <- J7 in Q; unfold mesh in Q; destruct (assoc (m_tag V d) (colls m1)); discriminate.
  destruct (save_file V G _ _ _ _ _ _ _ E) as [c [C1 [C2 [C3 C4]]]]. pose proof (field_save V G _ _ _ _ _ _ _ E) as FS. exists m2, k2, c.
  split; [reflexivity|]. split; [exact (save_ok V G _ _ _ _ _ _ _ J1 E)|]. destruct (save_inv V G _ _ _ _ _ _ _ E) as [c0 [E0 [Em Ek]]].
  split. { constructor; try (rewrite Em; cbn [started restart named_states named_duals]; rewrite ?J2, ?J3, ?J5, ?J6; auto; fail).
    - intros t b H. rewrite <- J7 in H. rewrite Em. unfold mesh in *. cbn [colls]. destruct (string_dec t (m_tag V d)) as [->|N]; [rewrite assoc_put_same; rewrite E0 in H; exact H|rewrite assoc_put_other by exact N; exact H].
    - intros t w H. rewrite Em. cbn [shapes]. rewrite J4. eauto. }
  split; [rewrite Em; exact J4|]. split; [exact C1|]. split; [exact C2|]. split; [exact C3|]. split; [intros n; rewrite C4, FS; reflexivity|]. split; [|split].
  - intros t y N. rewrite Ek. destruct (String.eqb_spec t (m_tag V d)) as [->|]; cbn [andb]; [|reflexivity]. destruct (Z.eqb_spec y (m_cycle V d)) as [->|]; [exfalso; apply N; auto|reflexivity].
  - intros A x Hx. rewrite FS. apply J8; [exact Hx|]. intros y Hy Ey. destruct x as [[[|] n] s], y as [[[|] n'] s']; cbn [iname fst snd] in Ey; subst n'.
    + destruct (written_duals _ _ _ _ Hx) as [_ ->], (written_duals _ _ _ _ Hy) as [_ ->]. reflexivity.
    + exfalso. destruct (written_duals _ _ _ _ Hx) as [H1 _]. apply (A n); [|exact H1]. destruct (written_states _ _ _ _ Hy) as [[H2 _]|[-> _]]; [now right|now left].
    + exfalso. destruct (written_duals _ _ _ _ Hy) as [H1 _]. apply (A n); [|exact H1]. destruct (written_states _ _ _ _ Hx) as [[H2 _]|[-> _]]; [now right|now left].
    + destruct (written_states _ _ _ _ Hx) as [[H1 ->]|[-> ->]], (written_states _ _ _ _ Hy) as [[H2 ->]|[E2 ->]]; try reflexivity; exfalso; apply NS; congruence.
  - intros t n N. rewrite FS. apply J9. exact N.
Qed.
End Facts.
