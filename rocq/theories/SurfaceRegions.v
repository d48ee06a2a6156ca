(** Model of color_surface_seeds from the first link on (MeshingVoroCrustSampler.cpp:1721-2325): the same-side
    rule, the graph of the seeds, the colouring. *)
From Verif Require Import Base Num SmartTree KdTree Graph Spheres SeedSides Coloring.

(** [s] is the tree of the seeds, [cap_s] its capacity; the calls of graph_connect_nodes are made while the spheres
    are visited, which is the same because nothing reads that graph before 2246.  The markers at the end of
    the first part are those the colouring starts with. *)
Definition color_surface {F : Type} `{Num F} (s : stree F) (sph : list (list F)) (seeds : list (pseed F))
  (angle : F -> F -> F) (cap cap_s ns ne : nat) : res (option nat * list nat * bool) :=
  '(col, l) <- same_side_links sph seeds angle cap ns ne ;;
  g <- grun (g_new (length seeds) cap_s) (map (fun e => GConnectNodes (fst e) (snd e)) l) ;;
  color_seeds any s g col.
