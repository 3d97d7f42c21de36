(** * Histories of modules on shared meshes (C67) *)
From Coq Require Import String List Bool Arith ZArith Reals Lia.
From Verif Require Import Names FEVector StateMgr Modules ModulesFacts.
Import ListNotations.
Local Open Scope string_scope.
Set Default Proof Using "Type".

Section Run.
Variables V G : Type.
Variables (prolong scatter : V -> G) (restrict_ : G -> V) (zero : V).
Notation mgr := (mgr V G). Notation disk := (string -> Z -> option (coll G)). Notation module := (module V). Notation world := (world V G).
Notation Done := StateMgr.Done. Notation inv := (StateMgr.inv V G). Notation grows := (grows V G). Notation registered := (registered V G). Notation shaped_all := (shaped_all V G).
Notation exec := (exec prolong scatter restrict_ zero).

(** ** manager calls *)
Lemma grows_with (m : mgr) tag c b : assoc tag (colls m) = None -> (restart m = true -> b = true) -> grows m (with_coll V G m tag c b).
Proof.
  intros N B. constructor; cbn [with_coll started restart named_states named_duals shapes]; eauto. intros t a H. unfold mesh in *. cbn [with_coll colls]. rewrite assoc_app.
  destruct (assoc t (colls m)); [exact H|discriminate].
Qed.
Lemma grows_shape (m : mgr) tag v : grows m (set_shape_value V G m tag v).
Proof. constructor; cbn [set_shape_value started restart named_states named_duals shapes]; eauto. intros t w H. destruct (string_dec t tag) as [->|N]; [rewrite assoc_put_same; eauto|rewrite assoc_put_other by exact N; eauto]. Qed.
Lemma inv_shape (m : mgr) tag v : inv m -> inv (set_shape_value V G m tag v).
Proof. apply inv_shapes. Qed.
Lemma shaped_shape (m : mgr) tag v : shaped_all m -> shaped_all (set_shape_value V G m tag v).
Proof.
  intros H t a M. destruct (H t a M) as [S [[w W] N]]. split; [exact S|]. split; [|exact N]. cbn [set_shape_value shapes]. destruct (string_dec t tag) as [->|E]; [rewrite assoc_put_same; eauto|rewrite assoc_put_other by exact E; eauto].
Qed.
Lemma shaped_grows (m m' : mgr) : grows m m' -> (forall t a, mesh m' t = Done a -> exists b, mesh m t = Done b) -> shaped_all m -> shaped_all m'.
Proof. intros [A1 _ A3 _ _ A6] B H t a M. destruct (B t a M) as [b Mb]. destruct (H t b Mb) as [S [[w W] N]]. split; [auto|]. split; [eauto|auto]. Qed.
Lemma mesh_set_fields (m : mgr) tag c f s d t a : assoc tag (colls m) = Some c -> mesh (set_fields V G m tag c f s d) t = Done a -> exists b, mesh m t = Done b.
Proof. intros E H. rewrite mesh_set in H by exact E. eauto. Qed.
Lemma entered_set (m m' : mgr) tag n j v s d : entered V G restrict_ m m' tag n j v s d -> exists c f, assoc tag (colls m) = Some c /\ m' = set_fields V G m tag c f s d.
Proof. intros E. destruct (entered_fields2 _ _ _ _ _ _ _ _ _ _ _ E) as [c [f [H1 [H2 _]]]]. eauto. Qed.
Lemma store_grows (m m' : mgr) a n j v : store_state restrict_ m a n j = Done (m', v) -> grows m m' /\ (forall t b, mesh m' t = Done b -> exists b', mesh m t = Done b') /\ assoc n (named_states m) = None /\ shapes m' = shapes m.
Proof.
  intros H. destruct (store_state_inv _ _ _ _ _ _ _ _ _ H) as [tg [F [Hs En]]]. apply has_state_none in Hs. destruct (entered_set _ _ _ _ _ _ _ _ En) as [c [f [E ->]]].
  split; [apply grows_set; auto; now apply put_grows|]. split; [intros t b; now apply mesh_set_fields|]. auto.
Qed.
Lemma dual_grows (m m' : mgr) a n j v : store_dual restrict_ m a n j = Done (m', v) -> grows m m' /\ (forall t b, mesh m' t = Done b -> exists b', mesh m t = Done b') /\ assoc n (named_duals m) = None.
Proof.
  intros H. destruct (store_dual_inv _ _ _ _ _ _ _ _ _ H) as [tg [F [Hs En]]]. apply has_dual_none in Hs. destruct (entered_set _ _ _ _ _ _ _ _ En) as [c [f [E ->]]].
  split; [apply grows_set; auto; now apply put_grows|]. split; [intros t b; now apply mesh_set_fields|]. exact Hs.
Qed.
Lemma write_grows (m m' : mgr) p g : write_field V G m p g = Done m' -> grows m m' /\ (forall t b, mesh m' t = Done b -> exists b', mesh m t = Done b').
Proof. intros H. destruct (write_inv V G _ _ _ _ H) as [c [E ->]]. split; [now apply grows_set|]. intros t b; now apply mesh_set_fields. Qed.
(** a new mesh: its shape displacement is stored under a name not used before *)
Lemma construct_grows (m m' : mgr) tag c b j : inv m -> shaped_all m -> started m = true -> assoc tag (colls m) = None -> mesh_at c = next_mesh V G m -> (restart m = true -> b = true) ->
  construct_shape V G restrict_ zero (with_coll V G m tag c b) tag j = Done m' ->
  grows m m' /\ shaped_all m' /\ (forall t a, mesh m' t = Done a -> t <> tag -> exists a', mesh m t = Done a') /\ assoc (shape_name tag) (named_states m) = None.
Proof.
  intros I SA St N A B H. pose proof (grows_with m tag c b N B) as G1. destruct (construct_inv _ _ _ _ _ _ _ _ H) as [a [m1 [v [M [Es ->]]]]].
  destruct (store_grows _ _ _ _ _ _ Es) as [G2 [B2 [N2 _]]]. cbn [with_coll named_states] in N2.
  assert (Back : forall t x, mesh m1 t = Done x -> t <> tag -> exists a', mesh m t = Done a').
  { intros t x Hx Nt. destruct (B2 t x Hx) as [b' Hb]. unfold mesh in *. cbn [with_coll colls] in Hb. rewrite assoc_app in Hb. destruct (assoc t (colls m)); [eauto|]. rewrite (proj2 (String.eqb_neq t tag) Nt) in Hb. discriminate. }
  pose proof (grows_trans _ _ _ _ _ G1 G2) as G12. pose proof (grows_trans _ _ _ _ _ G12 (grows_shape m1 tag zero)) as G3.
  split; [exact G3|]. split; [|split; [exact Back|exact N2]].
  intros t x Hx. destruct (string_dec t tag) as [->|Nt].
  - split; [exact (gr_started _ _ _ _ G3 St)|]. split; [cbn [shapes]; rewrite assoc_put_same; eauto|]. cbn [named_states].
    destruct (store_creates _ _ _ _ _ _ _ _ _ _ (inv_with V G m tag c b I N A) M Es) as [C _]. exact (proj2 (cr_states _ _ _ _ _ _ _ C _ (or_introl eq_refl))).
  - destruct (Back t x Hx Nt) as [a' Ha]. destruct (SA t a' Ha) as [_ [[w W] Nn]]. split; [exact (gr_started _ _ _ _ G3 St)|]. split; [exact (gr_shapes _ _ _ _ G3 _ _ W)|]. exact (gr_states _ _ _ _ G3 _ _ Nn).
Qed.
Definition fresh_tag (m m' : mgr) : Prop := forall t a, mesh m' t = Done a -> (exists a', mesh m t = Done a') \/ assoc (shape_name t) (named_states m) = None.
Lemma exec_grows (m m' : mgr) k k' o : inv m -> shaped_all m -> exec (m, k) o = Done (m', k') -> is_init V G o = false -> grows m m' /\ shaped_all m' /\ fresh_tag m m'.
Proof.
  intros I SA H O. destruct o as [dir|tag j|cyc tag j|a n j|a n j|n v|n v|t cyc tag]; cbn [StateMgr.exec is_init] in *; try discriminate; try (destruct (keep_done _ _ _ _ _ _ _ H) as [x [E [-> _]]]).
  - destruct (set_mesh_inv _ _ _ _ _ _ _ _ E) as [St [N C]]. destruct (construct_grows m x tag {| fields := []; ctime := 0; ccycle := 0; mesh_at := next_mesh V G m |} (restart m) j I SA St N eq_refl (fun h => h) C) as [A1 [A2 [A3 A4]]]. split; [exact A1|]. split; [exact A2|].
    intros t a Ht. destruct (string_dec t tag) as [->|Nt]; [right; exact A4|left; exact (A3 t a Ht Nt)].
  - destruct x as [m1 tm]. destruct (load_inv _ _ _ _ _ _ _ _ _ _ _ E) as [St [N [c [_ [_ C]]]]]. cbn [fst]. destruct (construct_grows m m1 tag {| fields := fields c; ctime := ctime c; ccycle := ccycle c; mesh_at := next_mesh V G m |} true j I SA St N eq_refl (fun _ => eq_refl) C) as [A1 [A2 [A3 A4]]]. split; [exact A1|]. split; [exact A2|].
    intros t a Ht. destruct (string_dec t tag) as [->|Nt]; [right; exact A4|left; exact (A3 t a Ht Nt)].
  - destruct x as [m1 v]. cbn [fst]. destruct (store_grows _ _ _ _ _ _ E) as [A [B _]]. split; [exact A|]. split; [exact (shaped_grows _ _ A B SA)|]. intros t b Hb. left. exact (B t b Hb).
  - destruct x as [m1 v]. cbn [fst]. destruct (dual_grows _ _ _ _ _ _ E) as [A [B _]]. split; [exact A|]. split; [exact (shaped_grows _ _ A B SA)|]. intros t b Hb. left. exact (B t b Hb).
  - destruct (update_inv _ _ _ _ _ _ _ E) as [p [_ W]]. destruct (write_grows _ _ _ _ W) as [A B]. split; [exact A|]. split; [exact (shaped_grows _ _ A B SA)|]. intros t b Hb. left. exact (B t b Hb).
  - destruct (updated_inv _ _ _ _ _ _ _ E) as [p [_ W]]. destruct (write_grows _ _ _ _ W) as [A B]. split; [exact A|]. split; [exact (shaped_grows _ _ A B SA)|]. intros t b Hb. left. exact (B t b Hb).
  - destruct (save_inv _ _ _ _ _ _ _ _ _ H) as [c [E [Em _]]].
    assert (M : forall t0, mesh m' t0 = mesh m t0) by (intros t0; rewrite Em; unfold mesh; cbn [colls]; destruct (string_dec t0 tag) as [->|Nt]; [rewrite assoc_put_same, E; reflexivity|now rewrite assoc_put_other]).
    assert (Gm : grows m m') by (constructor; try (rewrite Em; cbn [started restart named_states named_duals shapes]; eauto; fail); intros t0 a Ha; rewrite M; exact Ha).
    split; [exact Gm|]. split; [apply (shaped_grows _ _ Gm); [|exact SA]; intros t0 a Ha; rewrite M in Ha; eauto|]. intros t0 a Ha. rewrite M in Ha. left. eauto.
Qed.

(** ** constructing a module *)
Lemma construct_made m k kd quasi name tag params cyc t td junk m' k' d : inv m -> shaped_all m ->
  construct V G prolong scatter restrict_ zero m k kd quasi name tag params cyc t td junk = Done (m', k', d) ->
  exists m3, creates V G m m3 tag (own_states V d) (own_duals V d) /\ mesh m tag = Done (m_mesh V d) /\
    m_kind V d = kd /\ m_quasi V d = quasi /\ m_name V d = name /\ m_tag V d = tag /\ m_params V d = params /\ m_to_disk V d = td /\ m_cycle V d = cyc /\ m_time V d = t /\
    (forall n, ~ In n (map (fun p => full V d (fst p)) params) -> sval V d n = zero) /\
    (forall n, ~ In n (map (fun p => sens (full V d (fst p))) params) -> dval V d n = zero) /\
    (forall p, In p params -> exists g, field m3 tag (full V d (fst p)) = Some g /\ sval V d (full V d (fst p)) = restrict_ g) /\
    ((kd = Solid /\ td = true /\ output_to_disk V G prolong scatter (set_shape_value V G m3 tag zero) k d = Done (m', k')) \/ (~ (kd = Solid /\ td = true) /\ m' = set_shape_value V G m3 tag zero /\ k' = k)).
Proof.
  intros I SA H. unfold construct in H. destruct (bind_done _ _ _ H) as [a [M H1]]. clear H. destruct (bind_done _ _ _ H1) as [v0 [_ H2]]. clear H1.
  destruct (bind_done _ _ _ H2) as [[m0 w0] [S0 H3]]. clear H2. cbn [fst] in H3. destruct (bind_done _ _ _ H3) as [m1 [S1 H4]]. clear H3. destruct (bind_done _ _ _ H4) as [m2 [S2 H5]]. clear H4.
  destruct (bind_done _ _ _ H5) as [[[m3 sv] dv] [S3 H6]]. clear H5. cbn [fst snd] in H6.
  destruct (dual_creates _ _ _ _ _ _ _ _ _ _ I M S0) as [C0 _]. pose proof (make_states_creates _ _ _ _ _ _ _ _ (cr_inv _ _ _ _ _ _ _ C0) S1) as C1.
  pose proof (make_duals_creates _ _ _ _ _ _ _ _ (cr_inv _ _ _ _ _ _ _ C1) S2) as C2.
  assert (M2 : mesh m2 tag = Done a) by (apply (gr_mesh _ _ _ _ (cr_grows _ _ _ _ _ _ _ C2)), (gr_mesh _ _ _ _ (cr_grows _ _ _ _ _ _ _ C1)), (gr_mesh _ _ _ _ (cr_grows _ _ _ _ _ _ _ C0)), M).
  destruct (make_params_creates _ _ _ _ _ _ _ _ _ _ _ _ _ (cr_inv _ _ _ _ _ _ _ C2) M2 S3) as [C3 [SV [DV PV]]].
  pose proof (creates_app _ _ _ _ _ _ _ _ _ _ C0 (creates_app _ _ _ _ _ _ _ _ _ _ C1 (creates_app _ _ _ _ _ _ _ _ _ _ C2 C3))) as C.
  set (d0 := {| m_kind := kd; m_quasi := quasi; m_name := name; m_tag := tag; m_mesh := a; m_params := params; m_to_disk := td; m_cycle := cyc; m_time := t; sval := sv; dval := dv |}) in *.
  assert (E : d = d0 /\ ((kd = Solid /\ td = true /\ output_to_disk V G prolong scatter (set_shape_value V G m3 tag zero) k d0 = Done (m', k')) \/ (~ (kd = Solid /\ td = true) /\ m' = set_shape_value V G m3 tag zero /\ k' = k))).
  { destruct kd.
    - injection H6 as <- <- <-. split; [reflexivity|]. right. split; [intros [Q _]; discriminate|auto].
    - destruct td.
      + destruct (bind_done _ _ _ H6) as [[m4 k4] [S4 H7]]. cbn [fst snd] in H7. injection H7 as <- <- <-. split; [reflexivity|]. left. auto.
      + injection H6 as <- <- <-. split; [reflexivity|]. right. split; [intros [_ Q]; discriminate|auto]. }
  destruct E as [-> E]. exists m3. assert (C' : creates V G m m3 tag (own_states V d0) (own_duals V d0)).
  { unfold own_states, own_duals, full. cbn [m_kind m_name m_params d0]. cbn [app] in C. rewrite !map_app, <- !app_assoc in C. rewrite map_map in C. exact C. }
  split; [exact C'|]. split; [exact M|]. cbn [m_kind m_quasi m_name m_tag m_params m_to_disk m_cycle m_time d0 sval dval]. do 8 (split; [reflexivity|]). unfold full. cbn [m_name d0].
  split; [intros n N; rewrite (SV n N); reflexivity|]. split; [intros n N; rewrite map_map in DV; rewrite (DV n N); reflexivity|]. split; [|exact E].
  intros p Hp. apply PV. apply in_map_iff. now exists p.
Qed.

(** ** the invariant of a program *)
Definition apart2 (d e : module) : Prop := forall n, In n (shape_name (m_tag V d) :: own_states V d) -> ~ In n (own_duals V e).
Record wf (w : world) : Prop := {
  w_inv : inv (w_mgr V G w);
  w_shaped : shaped_all (w_mgr V G w);
  w_reg : forall i d, nth_error (w_mods V G w) i = Some d -> registered (w_mgr V G w) d;
  w_sname : forall i d tag a, nth_error (w_mods V G w) i = Some d -> mesh (w_mgr V G w) tag = Done a -> ~ In (shape_name tag) (own_states V d);
  w_disj : forall i j d e n, nth_error (w_mods V G w) i = Some d -> nth_error (w_mods V G w) j = Some e -> i <> j -> (In n (own_states V d) -> ~ In n (own_states V e)) /\ (In n (own_duals V d) -> ~ In n (own_duals V e));
  w_apart : restart (w_mgr V G w) = false -> forall i j d e, nth_error (w_mods V G w) i = Some d -> nth_error (w_mods V G w) j = Some e -> m_tag V d = m_tag V e -> apart2 d e }.
Lemma nth_replace (d : module) : forall l i j, nth_error (replace V i d l) j = if Nat.eqb i j then match nth_error l i with Some _ => Some d | None => None end else nth_error l j.
Proof.
  induction l as [|x l IH]; intros i j; [destruct i, j; cbn; try reflexivity; destruct (Nat.eqb i j); reflexivity|]. destruct i, j; cbn [replace nth_error Nat.eqb]; try reflexivity. apply IH.
Qed.
Definition same_names (d e : module) : Prop := m_kind V d = m_kind V e /\ m_name V d = m_name V e /\ m_tag V d = m_tag V e /\ m_mesh V d = m_mesh V e /\ m_params V d = m_params V e.
Lemma same_own d e : same_names d e -> own_states V d = own_states V e /\ own_duals V d = own_duals V e /\ m_tag V d = m_tag V e /\ m_mesh V d = m_mesh V e.
Proof. intros [A [B [C [D E]]]]. unfold own_states, own_duals, full. rewrite A, B, E. auto. Qed.
Lemma wf_replace w i d e m k : wf w -> nth_error (w_mods V G w) i = Some d -> same_names e d -> m = w_mgr V G w -> wf {| w_mgr := m; w_disk := k; w_mods := replace V i e (w_mods V G w) |}.
Proof.
  intros [W1 W2 W3 W4 W5 W6] Hi S ->. destruct (same_own _ _ S) as [S1 [S2 [S3 S4]]].
  assert (K : forall j x, nth_error (replace V i e (w_mods V G w)) j = Some x -> exists y, nth_error (w_mods V G w) j = Some y /\ own_states V x = own_states V y /\ own_duals V x = own_duals V y /\ m_tag V x = m_tag V y /\ m_mesh V x = m_mesh V y).
  { intros j x Hx. rewrite nth_replace in Hx. destruct (Nat.eqb_spec i j) as [->|]; [|exists x; auto]. rewrite Hi in Hx. injection Hx as <-. exists d. auto. }
  constructor; cbn [w_mgr w_mods]; auto.
  - intros j x Hx. destruct (K j x Hx) as [y [Hy [E1 [E2 [E3 E4]]]]]. specialize (W3 j y Hy). unfold ModulesFacts.registered in *. now rewrite E1, E2, E3, E4.
  - intros j x tag a Hx Ha. destruct (K j x Hx) as [y [Hy [E1 _]]]. rewrite E1. exact (W4 j y tag a Hy Ha).
  - intros j1 j2 x1 x2 n H1 H2 N. destruct (K j1 x1 H1) as [y1 [Hy1 [E1 [E2 _]]]]. destruct (K j2 x2 H2) as [y2 [Hy2 [E3 [E4 _]]]]. rewrite E1, E2, E3, E4. exact (W5 j1 j2 y1 y2 n Hy1 Hy2 N).
  - intros R j1 j2 x1 x2 H1 H2 T. destruct (K j1 x1 H1) as [y1 [Hy1 [E1 [_ [E2 _]]]]]. destruct (K j2 x2 H2) as [y2 [Hy2 [_ [E3 [E4 _]]]]]. unfold apart2. rewrite E1, E2, E3. apply (W6 R j1 j2 y1 y2 Hy1 Hy2). congruence.
Qed.
Lemma wf_grows w m k : wf w -> inv m -> grows (w_mgr V G w) m -> shaped_all m -> fresh_tag (w_mgr V G w) m -> wf {| w_mgr := m; w_disk := k; w_mods := w_mods V G w |}.
Proof.
  intros [W1 W2 W3 W4 W5 W6] I Gr SA F. constructor; cbn [w_mgr w_mods]; auto.
  - intros i d Hi. exact (registered_grows _ _ _ _ _ Gr (W3 i d Hi)).
  - intros i d tag a Hi Ha. destruct (F tag a Ha) as [[b Hb]|N]; [exact (W4 i d tag b Hi Hb)|]. intros Q. destruct (W3 i d Hi) as [_ [_ [_ [RS _]]]]. rewrite (RS _ Q) in N. discriminate.
  - intros R. apply W6. destruct (restart (w_mgr V G w)) eqn:E; [|reflexivity]. rewrite (gr_restart _ _ _ _ Gr E) in R. discriminate.
Qed.
Lemma fresh_same (m m' : mgr) : (forall t a, mesh m' t = Done a -> exists b, mesh m t = Done b) -> fresh_tag m m'.
Proof. intros H t a Ha. left. exact (H t a Ha). Qed.
Lemma update_back (m m' : mgr) n v : update_state prolong m n v = Done m' \/ update_dual scatter m n v = Done m' -> forall x a, mesh m' x = Done a -> exists b, mesh m x = Done b.
Proof. intros [H|H]; [destruct (update_inv _ _ _ _ _ _ _ H) as [p [_ W]]|destruct (updated_inv _ _ _ _ _ _ _ H) as [p [_ W]]]; exact (proj2 (write_grows _ _ _ _ W)). Qed.
Lemma push_back : forall l (m m' : mgr), push V G prolong scatter m l = Done m' -> forall x a, mesh m' x = Done a -> exists b, mesh m x = Done b.
Proof.
  induction l as [|y l IH]; intros m m' H x a Ha; cbn [push] in H; [injection H as <-; eauto|]. destruct (bind_done _ _ _ H) as [m1 [H1 H2]]. destruct (IH _ _ H2 x a Ha) as [b Hb].
  unfold push1 in H1. apply (update_back m m1 (iname V y) (snd y)) with (a := b); [destruct (fst (fst y)); auto|exact Hb].
Qed.
Lemma output_back (m m' : mgr) k k' d : output_to_disk V G prolong scatter m k d = Done (m', k') -> forall x a, mesh m' x = Done a -> exists b, mesh m x = Done b.
Proof.
  intros H x a Ha. unfold output_to_disk in H. destruct (bind_done _ _ _ H) as [m1 [H1 K1]]. destruct (bind_done _ _ _ K1) as [m2 [H2 K2]]. destruct (bind_done _ _ _ K2) as [m3 [H3 K3]]. destruct (bind_done _ _ _ K3) as [v [_ K4]].
  destruct (bind_done _ _ _ K4) as [m4 [H4 K5]]. destruct (bind_done _ _ _ K5) as [m5 [H5 K6]]. destruct (save_inv _ _ _ _ _ _ _ _ _ K6) as [c [E [Em _]]].
  assert (A5 : exists b, mesh m5 x = Done b) by (rewrite Em in Ha; unfold mesh in *; cbn [colls] in Ha; destruct (string_dec x (m_tag V d)) as [->|N]; [rewrite E; eauto|rewrite assoc_put_other in Ha by exact N; eauto]).
  destruct A5 as [b5 A5]. destruct (update_back _ _ _ _ (or_intror H5) _ _ A5) as [b4 A4]. destruct (update_back _ _ _ _ (or_introl H4) _ _ A4) as [b3 A3].
  rewrite push_params_push in H3. destruct (push_back _ _ _ H3 _ _ A3) as [b2 A2]. rewrite (push_duals_push V G prolong) in H2. destruct (push_back _ _ _ H2 _ _ A2) as [b1 A1]. rewrite (push_states_push V G prolong scatter) in H1. exact (push_back _ _ _ H1 _ _ A1).
Qed.
Lemma apart_fresh m k kd quasi name tag params cyc t td junk m' k' d : inv m -> shaped_all m ->
  construct V G prolong scatter restrict_ zero m k kd quasi name tag params cyc t td junk = Done (m', k', d) -> restart m = false -> apart V d.
Proof.
  intros I SA H R. destruct (construct_made _ _ _ _ _ _ _ _ _ _ _ _ _ _ I SA H) as [m3 [C [M [_ [_ [_ [Et _]]]]]]]. destruct (cr_fresh _ _ _ _ _ _ _ C R) as [F N]. rewrite <- Et in *.
  intros n [<-|Hn]; [|exact (N n Hn)]. intros Q. specialize (F _ (or_intror Q)). destruct (SA _ _ M) as [_ [_ SN]]. destruct (v_state V G m I _ _ _ SN) as [_ [g Hg]]. rewrite Hg in F. discriminate.
Qed.
Lemma nth_app_last {A} (l : list A) x i y : nth_error (l ++ [x]) i = Some y -> nth_error l i = Some y \/ (i = length l /\ y = x).
Proof.
  intros H. destruct (Nat.lt_ge_cases i (length l)) as [L|L]; [rewrite nth_error_app1 in H by exact L; auto|]. rewrite nth_error_app2 in H by exact L.
  destruct (i - length l)%nat as [|q] eqn:E; cbn in H; [|destruct q; discriminate]. injection H as <-. right. split; [lia|reflexivity].
Qed.
Lemma construct_wf w kd quasi name tag params cyc t td junk m' k' d : wf w ->
  construct V G prolong scatter restrict_ zero (w_mgr V G w) (w_disk V G w) kd quasi name tag params cyc t td junk = Done (m', k', d) -> wf {| w_mgr := m'; w_disk := k'; w_mods := w_mods V G w ++ [d] |}.
Proof.
  intros W H. pose proof W as [W1 W2 W3 W4 W5 W6]. destruct (construct_made _ _ _ _ _ _ _ _ _ _ _ _ _ _ W1 W2 H) as [m3 [C [M [_ [_ [_ [Et [_ [_ [_ [_ [_ [_ [_ E]]]]]]]]]]]]]].
  set (m4 := set_shape_value V G m3 tag zero) in *. pose proof (grows_trans _ _ _ _ _ (cr_grows _ _ _ _ _ _ _ C) (grows_shape m3 tag zero)) as G4. fold m4 in G4.
  assert (M4 : forall x, mesh m4 x = mesh (w_mgr V G w) x) by (intros x; exact (cr_mesh _ _ _ _ _ _ _ C x)).
  assert (SA4 : shaped_all m4) by (apply (shaped_grows _ _ G4); [intros x a Ha; rewrite M4 in Ha; eauto|exact W2]).
  assert (I4 : inv m4) by (apply inv_shape; exact (cr_inv _ _ _ _ _ _ _ C)).
  assert (R4 : registered m4 d).
  { destruct (SA4 tag _ (eq_trans (M4 tag) M)) as [S1 [S2 _]]. split; [exact S1|]. rewrite Et. split; [rewrite M4; exact M|]. split; [exact S2|].
    split; intros n Hn; [exact (proj2 (cr_states _ _ _ _ _ _ _ C n Hn))|exact (proj2 (cr_duals _ _ _ _ _ _ _ C n Hn))]. }
  assert (SN4 : forall x a, mesh m4 x = Done a -> ~ In (shape_name x) (own_states V d)).
  { intros x a Ha Q. rewrite M4 in Ha. destruct (W2 x a Ha) as [_ [_ N]]. rewrite (proj1 (cr_states _ _ _ _ _ _ _ C _ Q)) in N. discriminate. }
  assert (Wm : wf {| w_mgr := m4; w_disk := w_disk V G w; w_mods := w_mods V G w ++ [d] |}).
  { constructor; cbn [w_mgr w_mods]; auto.
    - intros i e Hi. destruct (nth_app_last _ _ _ _ Hi) as [Q|[_ ->]]; [exact (registered_grows _ _ _ _ _ G4 (W3 i e Q))|exact R4].
    - intros i e x a Hi Ha. destruct (nth_app_last _ _ _ _ Hi) as [Q|[_ ->]]; [rewrite M4 in Ha; exact (W4 i e x a Q Ha)|exact (SN4 x a Ha)].
    - assert (Dj : forall i e n, nth_error (w_mods V G w) i = Some e -> (In n (own_states V e) -> ~ In n (own_states V d)) /\ (In n (own_duals V e) -> ~ In n (own_duals V d))).
      { intros i e n Q. destruct (W3 i e Q) as [_ [_ [_ [RS RD]]]]. split; intros H1 H2.
        - pose proof (proj1 (cr_states _ _ _ _ _ _ _ C n H2)) as N. rewrite (RS n H1) in N. discriminate.
        - pose proof (proj1 (cr_duals _ _ _ _ _ _ _ C n H2)) as N. rewrite (RD n H1) in N. discriminate. }
      intros i j x y n Hi Hj N. destruct (nth_app_last _ _ _ _ Hi) as [Qi|[-> ->]], (nth_app_last _ _ _ _ Hj) as [Qj|[-> ->]].
      + exact (W5 i j x y n Qi Qj N).
      + exact (Dj i x n Qi).
      + destruct (Dj j y n Qj) as [D1 D2]. split; intros H1 H2; [exact (D1 H2 H1)|exact (D2 H2 H1)].
      + congruence.
    - intros R. assert (R0 : restart (w_mgr V G w) = false) by (destruct (restart (w_mgr V G w)) eqn:Er; [rewrite (gr_restart _ _ _ _ G4 Er) in R; discriminate|reflexivity]).
      destruct (cr_fresh _ _ _ _ _ _ _ C R0) as [Fr Nd]. destruct (W2 _ _ M) as [_ [_ SNm]]. destruct (v_state V G _ W1 _ _ _ SNm) as [_ [gs Hgs]].
      assert (HS : forall i e n, nth_error (w_mods V G w) i = Some e -> m_tag V e = tag -> In n (own_states V e) -> exists g, field (w_mgr V G w) tag n = Some g).
      { intros i e n Q T Hn. destruct (W3 i e Q) as [_ [_ [_ [RS _]]]]. destruct (v_state V G _ W1 _ _ _ (RS n Hn)) as [_ [g Hg]]. rewrite T in Hg. eauto. }
      assert (HD : forall i e n, nth_error (w_mods V G w) i = Some e -> m_tag V e = tag -> In n (own_duals V e) -> exists g, field (w_mgr V G w) tag n = Some g).
      { intros i e n Q T Hn. destruct (W3 i e Q) as [_ [_ [_ [_ RD]]]]. destruct (v_dual V G _ W1 _ _ _ (RD n Hn)) as [_ [g Hg]]. rewrite T in Hg. eauto. }
      intros i j x y Hi Hj T. destruct (nth_app_last _ _ _ _ Hi) as [Qi|[-> ->]], (nth_app_last _ _ _ _ Hj) as [Qj|[-> ->]].
      + exact (W6 R0 i j x y Qi Qj T).
      + rewrite Et in T. intros n Hn Q. specialize (Fr n (or_intror Q)). rewrite T in Hn. destruct Hn as [<-|Hn]; [rewrite Hgs in Fr; discriminate|]. destruct (HS i x n Qi T Hn) as [g Hg]. rewrite Hg in Fr. discriminate.
      + rewrite Et in T. intros n Hn Q. rewrite Et in Hn. destruct (HD j y n Qj (eq_sym T) Q) as [g Hg]. destruct Hn as [<-|Hn].
        * pose proof (W6 R0 j j y y Qj Qj eq_refl) as Ay. apply (Ay (shape_name tag)); [left; now rewrite <- T|exact Q].
        * rewrite (Fr n (or_introl Hn)) in Hg. discriminate.
      + intros n [<-|Hn] Q; [|exact (Nd n Hn Q)]. rewrite Et in Q. rewrite (Fr _ (or_intror Q)) in Hgs. discriminate. }
  destruct E as [[_ [_ O]]|[_ [-> ->]]]; [|exact Wm].
  destruct (SA4 tag _ (eq_trans (M4 tag) M)) as [_ [[v Sv] SNn]]. rewrite <- Et in SNn, Sv.
  destruct (output_ok V G prolong scatter m4 (w_disk V G w) d v I4 R4 SNn (SN4 _ _ (proj1 (proj2 R4))) Sv) as [m5 [k5 [c [O' [I5 [G5 [S5 _]]]]]]]. fold m4 in O. rewrite O in O'. injection O' as -> ->.
  assert (B5 : forall x a, mesh m5 x = Done a -> exists b, mesh m4 x = Done b) by exact (output_back _ _ _ _ _ O).
  apply (wf_grows _ m5 k5 Wm I5 G5); [apply (shaped_grows _ _ G5 B5 SA4)|exact (fresh_same _ _ B5)].
Qed.
Lemma same_stepped d sv dv cyc t : same_names (stepped V d sv dv cyc t) d.
Proof. repeat split. Qed.
Lemma same_parameter d j s v d' : set_parameter V d j s v = Done d' -> same_names d' d.
Proof.
  unfold set_parameter. destruct (nth_error (m_params V d) j) as [[p sp]|]; [|discriminate]. destruct (negb _); [discriminate|]. destruct (negb _); [discriminate|]. destruct (negb _); [discriminate|].
  intros H. injection H as <-. repeat split.
Qed.
Lemma set_shape_done (m m' : mgr) d sp s v : set_shape V G m d sp s v = Done m' -> m' = set_shape_value V G m (m_tag V d) v.
Proof. unfold set_shape. destruct (negb _); [discriminate|]. destruct (negb _); [discriminate|]. destruct (negb _); [discriminate|]. intros H. destruct (bind_done _ _ _ H) as [w [_ K]]. now injection K as <-. Qed.
Lemma pick_some w i d : pick V G w i = Done d -> nth_error (w_mods V G w) i = Some d.
Proof. unfold pick. destruct (nth_error (w_mods V G w) i); [|discriminate]. intros H. now injection H as <-. Qed.
Lemma perform_wf w c w' : wf w -> perform V G prolong scatter restrict_ zero w c = Done w' -> wf w'.
Proof.
  intros W H. pose proof W as [W1 W2 W3 W4 W5 W6]. destruct c as [o|kd quasi name tag params cyc t td junk|i sv dv cyc t|i j s v|i sp s v|i]; cbn [perform] in H.
  - destruct (bind_done _ _ _ H) as [[m1 k1] [E K]]. cbn [fst snd] in K. injection K as <-. destruct (is_init V G o) eqn:O.
    + destruct o as [dir| | | | | | |]; try discriminate. cbn [StateMgr.exec] in E. destruct (keep_done _ _ _ _ _ _ _ E) as [x [Ex [-> _]]]. destruct (init_ok _ _ _ _ _ Ex) as [I1 [_ [_ [Ec _]]]].
      constructor; cbn [w_mgr w_mods]; auto.
      * intros tag a Ha. unfold mesh in Ha. rewrite Ec in Ha. discriminate.
      * intros i d Hi. destruct i; discriminate.
      * intros i d tag a Hi. destruct i; discriminate.
      * intros i j d e n Hi. destruct i; discriminate.
      * intros _ i j d e Hi. destruct i; discriminate.
    + destruct (exec_grows _ _ _ _ _ W1 W2 E O) as [G1 [S1 F1]]. exact (wf_grows w m1 k1 W (exec_ok _ _ _ _ _ _ _ _ _ _ _ E W1) G1 S1 F1).
  - destruct (bind_done _ _ _ H) as [[[m1 k1] d] [E K]]. cbn [fst snd] in K. injection K as <-. exact (construct_wf _ _ _ _ _ _ _ _ _ _ _ _ _ W E).
  - destruct (bind_done _ _ _ H) as [d [E K]]. injection K as <-. apply (wf_replace w i d); auto using pick_some, same_stepped.
  - destruct (bind_done _ _ _ H) as [d [E K]]. destruct (bind_done _ _ _ K) as [d' [E' K']]. injection K' as <-. apply (wf_replace w i d); eauto using pick_some, same_parameter.
  - destruct (bind_done _ _ _ H) as [d [E K]]. destruct (bind_done _ _ _ K) as [m1 [E' K']]. injection K' as <-. rewrite (set_shape_done _ _ _ _ _ _ E'). apply wf_grows; auto using inv_shape, grows_shape, shaped_shape.
    apply fresh_same. intros t a Ha. exists a. exact Ha.
  - destruct (bind_done _ _ _ H) as [d [E K]]. destruct (bind_done _ _ _ K) as [[m1 k1] [E' K']]. cbn [fst snd] in K'. injection K' as <-. apply pick_some in E.
    pose proof (W3 i d E) as R. destruct (W2 _ _ (proj1 (proj2 R))) as [_ [[v Sv] SN]].
    destruct (output_ok V G prolong scatter (w_mgr V G w) (w_disk V G w) d v W1 R SN (W4 i d _ _ E (proj1 (proj2 R))) Sv) as [m5 [k5 [c [O' [I5 [G5 [S5 _]]]]]]]. rewrite E' in O'. injection O' as -> ->.
    pose proof (output_back _ _ _ _ _ E') as B. apply wf_grows; auto; [exact (shaped_grows _ _ G5 B W2)|exact (fresh_same _ _ B)].
Qed.
Definition begin_with (k : disk) : world := {| w_mgr := cleared; w_disk := k; w_mods := [] |}.
(** reachable: some program started on some disk *)
Definition reachable (w : world) : Prop := exists k cs, program V G prolong scatter restrict_ zero (begin_with k) cs = Done w.
Lemma program_wf : forall cs w w', wf w -> program V G prolong scatter restrict_ zero w cs = Done w' -> wf w'.
Proof. induction cs as [|c cs IH]; intros w w' W H; cbn [program] in H; [injection H as <-; exact W|]. destruct (bind_done _ _ _ H) as [w1 [E K]]. exact (IH _ _ (perform_wf _ _ _ W E) K). Qed.
Lemma reachable_wf w : reachable w -> wf w.
Proof.
  intros [k [cs H]]. apply (program_wf _ _ _) in H; [exact H|]. constructor; cbn [begin_with w_mgr w_mods].
  - apply inv_cleared.
  - intros tag a Ha. discriminate.
  - intros i d Hi. destruct i; discriminate.
  - intros i d tag a Hi. destruct i; discriminate.
  - intros i j d e n Hi. destruct i; discriminate.
  - intros _ i j d e Hi. destruct i; discriminate.
Qed.
Lemma program_app : forall a b w, program V G prolong scatter restrict_ zero w (a ++ b) = bind (program V G prolong scatter restrict_ zero w a) (fun w' => program V G prolong scatter restrict_ zero w' b).
Proof. induction a as [|c a IH]; intros b w; cbn [app program bind]; [reflexivity|]. rewrite bind_assoc. apply bind_ext. intros; apply IH. Qed.

(** ** the properties *)
Definition module_of (w : world) (i : nat) (d : module) : Prop := nth_error (w_mods V G w) i = Some d.
(** what a module's motion consists of: rates only in dynamics *)
Definition state_of_motion (k : kind) (quasi : bool) (f : string) : Prop :=
  match k with
  | Heat => f = "temperature" \/ quasi = false /\ f = "temperature_rate"
  | Solid => f = "displacement" \/ quasi = false /\ (f = "velocity" \/ f = "acceleration")
  end%string.
Lemma listed_motion k q f : state_of_motion k q f -> In f (listed k q).
Proof. destruct k, q; cbn; intros [->|[E H]]; try discriminate; try destruct H as [->| ->]; subst; auto. Qed.
(** the file holds the module: the states of its motion, duals, parameters with their sensitivities, and the shape displacement with its sensitivity *)
Definition holds (d : module) (v : V) (c : coll G) : Prop :=
  (forall f, state_of_motion (m_kind V d) (m_quasi V d) f -> assoc (full V d f) (fields c) = Some (prolong (sval V d (full V d f)))) /\
  (forall f, In f (dual_fields (m_kind V d)) -> assoc (full V d f) (fields c) = Some (scatter (dval V d (full V d f)))) /\
  (forall p, In p (map fst (m_params V d)) -> assoc (full V d p) (fields c) = Some (prolong (sval V d (full V d p))) /\ assoc (sens (full V d p)) (fields c) = Some (scatter (dval V d (sens (full V d p))))) /\
  assoc (shape_name (m_tag V d)) (fields c) = Some (prolong v) /\ assoc (shape_sens (m_name V d)) (fields c) = Some (scatter (dval V d (shape_sens (m_name V d)))).
(** writing never fails, and what the file holds *)
Lemma output_file w i d : reachable w -> module_of w i d -> exists v m' k' c, shape_value V G (w_mgr V G w) (m_tag V d) = Done v /\
  output_to_disk V G prolong scatter (w_mgr V G w) (w_disk V G w) d = Done (m', k') /\
  k' (m_tag V d) (m_cycle V d) = Some c /\ ctime c = m_time V d /\ ccycle c = m_cycle V d /\
  (forall t y, ~ (t = m_tag V d /\ y = m_cycle V d) -> k' t y = w_disk V G w t y) /\
  (apart V d -> holds d v c) /\
  (forall n, n <> shape_name (m_tag V d) -> ~ In n (own_states V d) -> ~ In n (own_duals V d) -> assoc n (fields c) = field (w_mgr V G w) (m_tag V d) n) /\
  (forall t n, t <> m_tag V d -> field m' t n = field (w_mgr V G w) t n) /\ (forall n, field m' (m_tag V d) n = assoc n (fields c)) /\ shapes m' = shapes (w_mgr V G w) /\ restart m' = restart (w_mgr V G w).
Proof.
  intros Rw Hi. pose proof (reachable_wf w Rw) as [W1 W2 W3 W4 W5 W6]. pose proof (W3 i d Hi) as R. destruct (W2 _ _ (proj1 (proj2 R))) as [_ [[v Sv] SN]].
  destruct (output_ok V G prolong scatter (w_mgr V G w) (w_disk V G w) d v W1 R SN (W4 i d _ _ Hi (proj1 (proj2 R))) Sv) as [m' [k' [c [O [_ [Gm [Sh [C1 [C2 [C3 [C4 [C5 [C6 C7]]]]]]]]]]]]].
  exists v, m', k', c. unfold shape_value. rewrite Sv. split; [reflexivity|]. split; [exact O|]. split; [exact C1|]. split; [exact C2|]. split; [exact C3|]. split; [exact C5|].
  split; [|split; [|split; [|split; [|split]]]].
  - intros A. specialize (C6 A). unfold holds. setoid_rewrite C4.
    assert (F : forall b n s, In (b, n, s) (written V d v) -> field m' (m_tag V d) n = Some (if b then scatter s else prolong s)) by (intros b n s Hx; exact (C6 (b, n, s) Hx)).
    unfold written in F. split; [|split; [|split; [|split]]].
    + intros f Hf. apply (F false). rewrite !in_app_iff. left. apply in_map_iff. exists (full V d f). split; [reflexivity|now apply in_map, listed_motion].
    + intros f Hf. apply (F true). rewrite !in_app_iff. right. left. apply in_map_iff. exists (full V d f). split; [reflexivity|now apply in_map].
    + intros p Hp. apply in_map_iff in Hp. destruct Hp as [[p' sp] [<- Hp]]. cbn [fst]. split; [apply (F false)|apply (F true)]; rewrite !in_app_iff; right; right; left; apply in_flat_map; exists (full V d p'); (split; [apply in_map_iff; exists (p', sp); auto|]); [now left|right; now left].
    + apply (F false). rewrite !in_app_iff. right. right. right. now left.
    + apply (F true). rewrite !in_app_iff. right. right. right. right. now left.
  - intros n N1 N2 N3. rewrite C4. apply C7. intros [_ Q]. apply in_map_iff in Q. destruct Q as [[[[|] n'] s] [E Q]]; cbn [iname fst snd] in E; subst n'.
    + exact (N3 (proj1 (written_duals _ _ _ _ _ Q))).
    + destruct (written_states _ _ _ _ _ Q) as [[Q' _]|[Q' _]]; auto.
  - intros t n N. apply C7. intros [Q _]. auto.
  - intros n. symmetry. apply C4.
  - exact Sh.
  - pose proof (output_push V G prolong scatter (w_mgr V G w) (w_disk V G w) d v _ W1 R SN Sv (proj1 (proj2 R))) as P. rewrite O in P. symmetry in P. destruct (bind_done _ _ _ P) as [m1 [P1 P2]].
    destruct (push_ok V G prolong scatter (m_tag V d) (m_mesh V d) (written V d v) (w_mgr V G w) W1 (proj1 (proj2 R)) (written_known V G _ d v R SN)) as [m1' [P1' Wp]]. rewrite P1 in P1'. injection P1' as <-.
    destruct (save_inv _ _ _ _ _ _ _ _ _ P2) as [c0 [_ [-> _]]]. cbn [restart]. exact (wr_restart _ _ _ _ _ _ _ _ Wp).
Qed.
Lemma reachable_perform w c w' : reachable w -> perform V G prolong scatter restrict_ zero w c = Done w' -> reachable w'.
Proof. intros [k [cs H]] P. exists k, (cs ++ [c])%list. rewrite program_app, H. cbn [bind program]. rewrite P. reflexivity. Qed.
Lemma apart_live w i j d e : reachable w -> restart (w_mgr V G w) = false -> module_of w i d -> module_of w j e -> m_tag V d = m_tag V e -> apart2 d e.
Proof. intros Rw R Hi Hj T. exact (w_apart w (reachable_wf w Rw) R i j d e Hi Hj T). Qed.
Lemma shape_sens_own d : In (shape_sens (m_name V d)) (own_duals V d).
Proof. left. reflexivity. Qed.
Lemma listed_own d f : In f (listed (m_kind V d) (m_quasi V d)) -> In (full V d f) (own_states V d).
Proof. intros H. unfold own_states. rewrite in_app_iff. left. apply in_map. now apply listed_primal in H. Qed.
Lemma dual_own d f : In f (dual_fields (m_kind V d)) -> In (full V d f) (own_duals V d).
Proof. intros H. unfold own_duals. right. rewrite in_app_iff. left. now apply in_map. Qed.
Lemma param_own d p : In p (map fst (m_params V d)) -> In (full V d p) (own_states V d) /\ In (sens (full V d p)) (own_duals V d).
Proof.
  intros H. apply in_map_iff in H. destruct H as [[q sp] [<- H]]. cbn [fst]. unfold own_states, own_duals. split.
  - rewrite !in_app_iff. right. right. apply in_map_iff. exists (q, sp). auto.
  - right. rewrite in_app_iff. right. apply in_map_iff. exists (q, sp). auto.
Qed.
(** two modules on one mesh written one after the other at one cycle: the file holds both *)
Lemma two_outputs w i j d e : reachable w -> module_of w i d -> module_of w j e -> i <> j -> m_tag V d = m_tag V e -> m_cycle V d = m_cycle V e ->
  (forall x y, (x = d \/ x = e) -> (y = d \/ y = e) -> apart2 x y) ->
  exists v w1 w2 c, shape_value V G (w_mgr V G w) (m_tag V d) = Done v /\ perform V G prolong scatter restrict_ zero w (COutput V G i) = Done w1 /\ perform V G prolong scatter restrict_ zero w1 (COutput V G j) = Done w2 /\
    w_disk V G w2 (m_tag V d) (m_cycle V d) = Some c /\ holds d v c /\ holds e v c.
Proof.
  intros Rw Hi Hj N T Cy A. destruct (output_file w i d Rw Hi) as [v [m1 [k1 [c1 [Sv [O1 [F1 [_ [_ [_ [H1 [_ [_ [Fm1 [Sh1 _]]]]]]]]]]]]]]].
  set (w1 := {| w_mgr := m1; w_disk := k1; w_mods := w_mods V G w |}).
  assert (P1 : perform V G prolong scatter restrict_ zero w (COutput V G i) = Done w1) by (cbn [perform]; unfold pick; rewrite Hi; cbn [bind]; rewrite O1; reflexivity).
  pose proof (reachable_perform _ _ _ Rw P1) as R1. destruct (output_file w1 j e R1 Hj) as [v2 [m2 [k2 [c2 [Sv2 [O2 [F2 [_ [_ [_ [H2 [Fr2 [_ [_ _]]]]]]]]]]]]]].
  assert (v2 = v) as ->. { unfold shape_value in *. cbn [w1 w_mgr] in Sv2. rewrite Sh1, <- T in Sv2. rewrite Sv2 in Sv. now injection Sv. }
  exists v, w1, {| w_mgr := m2; w_disk := k2; w_mods := w_mods V G w |}, c2. split; [exact Sv|]. split; [exact P1|]. split; [cbn [perform]; unfold pick; cbn [w1 w_mods]; rewrite Hj; cbn [bind]; cbn [w1 w_mgr w_disk] in O2; change (w_mgr V G w1) with m1; change (w_disk V G w1) with k1; rewrite O2; reflexivity|].
  cbn [w_disk]. rewrite T, Cy. split; [exact F2|]. pose proof (H2 (A e e (or_intror eq_refl) (or_intror eq_refl))) as He. split; [|exact He].
  destruct (H1 (A d d (or_introl eq_refl) (or_introl eq_refl))) as [B1 [B2 [B3 [B4 B5]]]].
  pose proof (w_disj w (reachable_wf w Rw) i j d e) as Dj. pose proof (w_sname w (reachable_wf w Rw) i d) as Sn.
  pose proof (w_reg w (reachable_wf w Rw) j e Hj) as [_ [Mj _]].
  assert (KS : forall n, In n (own_states V d) -> assoc n (fields c2) = assoc n (fields c1)).
  { intros n Hn. rewrite Fr2.
    - cbn [w1 w_mgr]. rewrite <- T. apply Fm1.
    - intros ->. exact (Sn _ _ Hi Mj Hn).
    - exact (proj1 (Dj n Hi Hj N) Hn).
    - apply (A d e (or_introl eq_refl) (or_intror eq_refl)). now right. }
  assert (KD : forall n, In n (own_duals V d) -> assoc n (fields c2) = assoc n (fields c1)).
  { intros n Hn. rewrite Fr2.
    - cbn [w1 w_mgr]. rewrite <- T. apply Fm1.
    - intros ->. apply (A e d (or_intror eq_refl) (or_introl eq_refl) (shape_name (m_tag V e))); [now left|exact Hn].
    - intros Q. apply (A e d (or_intror eq_refl) (or_introl eq_refl) n); [now right|exact Hn].
    - exact (proj2 (Dj n Hi Hj N) Hn). }
  split; [|split; [|split; [|split]]].
  - intros f Hf. rewrite KS by now apply listed_own, listed_motion. exact (B1 f Hf).
  - intros f Hf. rewrite KD by now apply dual_own. exact (B2 f Hf).
  - intros p Hp. destruct (param_own d p Hp). rewrite KS, KD by assumption. exact (B3 p Hp).
  - rewrite T. exact (proj1 (proj2 (proj2 (proj2 He)))).
  - rewrite KD by apply shape_sens_own. exact B5.
Qed.
(** what a constructed module starts with *)
Lemma construct_rest w kd quasi name tag params cyc t td junk w' : reachable w -> perform V G prolong scatter restrict_ zero w (CConstruct V G kd quasi name tag params cyc t td junk) = Done w' ->
  exists d, w_mods V G w' = (w_mods V G w ++ [d])%list /\ m_kind V d = kd /\ m_name V d = name /\ m_tag V d = tag /\ m_params V d = params /\ m_cycle V d = cyc /\ m_time V d = t /\
    (forall f, In f (primal kd) \/ f = adjoint kd -> sval V d (full V d f) = zero) /\
    (forall f, ~ In f (map (fun p => sens (full V d (fst p))) params) -> dval V d f = zero) /\
    shape_value V G (w_mgr V G w') tag = Done zero /\ (forall t', t' <> tag -> shape_value V G (w_mgr V G w') t' = shape_value V G (w_mgr V G w) t') /\
    (restart (w_mgr V G w) = true -> forall p, In p (map fst params) -> exists g, field (w_mgr V G w) tag (full V d p) = Some g /\ sval V d (full V d p) = restrict_ g).
Proof.
  intros Rw H. cbn [perform] in H. destruct (bind_done _ _ _ H) as [[[m1 k1] d] [E K]]. cbn [fst snd] in K. injection K as <-. pose proof (reachable_wf w Rw) as W. pose proof W as [W1 W2 W3 W4 W5 W6].
  destruct (construct_made _ _ _ _ _ _ _ _ _ _ _ _ _ _ W1 W2 E) as [m3 [C [M [Q1 [Q2 [Q3 [Q4 [Q5 [Q6 [Q7 [Q8 [S [D [P O]]]]]]]]]]]]]].
  exists d. cbn [w_mods w_mgr]. split; [reflexivity|]. split; [exact Q1|]. split; [exact Q3|]. split; [exact Q4|]. split; [exact Q5|]. split; [exact Q7|]. split; [exact Q8|].
  assert (Sh : shapes m1 = put tag zero (shapes (w_mgr V G w))).
  { destruct O as [[Ek [Et O]]|[_ [-> _]]]; [|cbn [set_shape_value shapes]; now rewrite (cr_shapes _ _ _ _ _ _ _ C)].
    set (m4 := set_shape_value V G m3 tag zero) in *. pose proof (grows_trans _ _ _ _ _ (cr_grows _ _ _ _ _ _ _ C) (grows_shape m3 tag zero)) as G4. fold m4 in G4.
    assert (M4 : forall x, mesh m4 x = mesh (w_mgr V G w) x) by (intros x; exact (cr_mesh _ _ _ _ _ _ _ C x)).
    assert (SA4 : shaped_all m4) by (apply (shaped_grows _ _ G4); [intros x a Ha; rewrite M4 in Ha; eauto|exact W2]).
    assert (I4 : inv m4) by (apply inv_shape; exact (cr_inv _ _ _ _ _ _ _ C)). destruct (SA4 tag _ (eq_trans (M4 tag) M)) as [S1 [[v Sv] SNn]].
    assert (R4 : registered m4 d).
    { split; [exact S1|]. rewrite Q4. split; [rewrite M4; exact M|]. split; [eauto|]. split; intros n Hn; [exact (proj2 (cr_states _ _ _ _ _ _ _ C n Hn))|exact (proj2 (cr_duals _ _ _ _ _ _ _ C n Hn))]. }
    rewrite <- Q4 in SNn, Sv.
    assert (SN4 : ~ In (shape_name (m_tag V d)) (own_states V d)).
    { intros Q. rewrite Q4 in Q. destruct (W2 tag _ M) as [_ [_ N]]. rewrite (proj1 (cr_states _ _ _ _ _ _ _ C _ Q)) in N. discriminate. }
    destruct (output_ok V G prolong scatter m4 (w_disk V G w) d v I4 R4 SNn SN4 Sv) as [m5 [k5 [c [O' [I5 [G5 [S5 _]]]]]]]. rewrite O in O'. injection O' as -> ->. rewrite S5. cbn [m4 set_shape_value shapes]. now rewrite (cr_shapes _ _ _ _ _ _ _ C). }
  split; [|split; [|split; [|split]]].
  - intros f Hf. apply S. intros Q. pose proof (cr_nodup _ _ _ _ _ _ _ C) as Nd. unfold own_states in Nd. rewrite app_assoc, Q1, Q5 in Nd. apply (nodup_app_disjoint _ _ Nd (full V d f)); [|exact Q]. rewrite in_app_iff. destruct Hf as [Hf| ->]; [left; now apply in_map|right; now left].
  - exact D.
  - unfold shape_value. rewrite Sh, assoc_put_same. reflexivity.
  - intros t' N. unfold shape_value. rewrite Sh, assoc_put_other by exact N. reflexivity.
  - intros R p Hp. apply in_map_iff in Hp. destruct Hp as [q [<- Hq]]. destruct (P q Hq) as [g [F Ev]]. exists g. split; [|exact Ev]. rewrite <- F. symmetry. apply (cr_saved _ _ _ _ _ _ _ C R).
Qed.
End Run.
