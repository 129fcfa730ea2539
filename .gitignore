*.vo
*.vok
*.vos
*.glob
*.aux
.lia.cache
.nia.cache
.Makefile.d
Makefile
Makefile.conf
CoqMakefile*
rocq/.nra.cache
rocq/.lia.cache
.nra.cache
