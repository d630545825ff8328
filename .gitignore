*.vo
*.vok
*.vos
*.glob
.*.aux
.lia.cache
*.vio
Makefile
Makefile.conf
.Makefile.d
CoqMakefile*
.nia.cache
.nra.cache
