.lia.cache
.nia.cache
*.vio
CoqMakefile*
.nra.cache
