*.vo
*.vos
*.vok
*.glob
*.aux
.*.aux
*.lia.cache
.lia.cache
.nia.cache
rocq/Makefile
rocq/Makefile.conf
rocq/.Makefile.d
